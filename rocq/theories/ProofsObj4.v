(** * Rebuilding a sample from its reflection coefficients (C06), bulk samples (C51) *)
From Coq Require Import String Reals Lra Lia ZArith List Bool.
From Coquelicot Require Import Rcomplements Complex.
From Verif Require Import Num NumLemmas ModelBase ModelSample NArr SpecArr NArrLemmas ModelObj ModelArr
  SpecObj ArrSample ProofsArr ProofsArr2 ProofsObj ProofsObj2 ProofsObj3 Spec StackLemmas ProofsStackQS.
Import ListNotations.
Open Scope R_scope.

(** the interface reflection coefficients of given permittivities *)
Fixpoint betas_of (a : C) (es : list C) : list C :=
  match es with [] => [] | b :: es' => ((b - a) / (b + a))%C :: betas_of b es' end.
Fixpoint sums_nonzero (a : C) (es : list C) : Prop :=
  match es with [] => True | b :: es' => (b + a)%C <> RtoC 0 /\ sums_nonzero b es' end.

Lemma betas_read : forall es a, sums_nonzero a es ->
  map (fun p => refl_coef_qs_single (fst p) (snd p))
    (combine (removelast (map Some (a :: es))) (tl (map Some (a :: es)))) = map Some (betas_of a es).
Proof.
  induction es as [|b es IH]; intros a H; [reflexivity|]. destruct H as [Hb H].
  specialize (IH b H). cbn [map tl] in IH |- *.
  change (removelast (Some a :: Some b :: map Some es)) with (Some a :: removelast (Some b :: map Some es)).
  cbn [combine map fst snd betas_of]. f_equal; [|exact IH].
  unfold refl_coef_qs_single. cbn [cadd csub olift2]. apply cdiv_ok, Hb.
Qed.

Lemma beta_factor : forall a b, a <> RtoC 0 -> (b + a)%C <> RtoC 0 ->
  ((1 + (b - a) / (b + a)) / (1 - (b - a) / (b + a)))%C = (b / a)%C /\ ((b - a) / (b + a))%C <> RtoC 1.
Proof.
  intros a b Ha Hs. assert (H2a : (2 * a)%C <> RtoC 0) by (apply Cmult_neq_0; [exact C2_neq_0|exact Ha]).
  assert (E1 : (1 - (b - a) / (b + a))%C = (2 * a / (b + a))%C) by (field; exact Hs).
  assert (E2 : (1 + (b - a) / (b + a))%C = (2 * b / (b + a))%C) by (field; exact Hs).
  split.
  - rewrite E1, E2. field. repeat split; auto using C2_neq_0.
  - intro N. assert (Z : (1 - (b - a) / (b + a))%C = RtoC 0) by (rewrite N; ring).
    rewrite E1 in Z. revert Z. apply Cdiv_neq_0; assumption.
Qed.
Lemma betas_not_one : forall es a, Forall (fun x => x <> RtoC 0) (a :: es) -> sums_nonzero a es ->
  Forall (fun c => c <> RtoC 1) (betas_of a es).
Proof.
  induction es as [|b es IH]; intros a H Hs; constructor; apply Forall_cons_iff in H; destruct H as [Ha H]; destruct Hs as [Hb Hs].
  - apply beta_factor; assumption.
  - apply IH; assumption.
Qed.
Lemma rebuilt_seq : forall es a e, Forall (fun x => x <> RtoC 0) (a :: es) -> sums_nonzero a es ->
  eps_seq (a * e)%C (betas_of a es) = map (fun x => (x * e)%C) (a :: es).
Proof.
  induction es as [|b es IH]; intros a e H Hs; [reflexivity|].
  apply Forall_cons_iff in H; destruct H as [Ha H]; destruct Hs as [Hb Hs].
  specialize (IH b e H Hs). cbn [betas_of eps_seq map] in IH |- *. f_equal. rewrite <- IH. f_equal.
  rewrite (proj1 (beta_factor a b Ha Hb)). field. exact Ha.
Qed.

(** quasistatically only the ratios of permittivities matter *)
Lemma refl_qs_scaled : forall es ts nu k q, k <> RtoC 0 -> Forall (fun x => x <> RtoC 0) es ->
  refl_coef_qs (mkSample (map (fun x => Some (x * k)%C) es) ts nu) q = refl_coef_qs (mkSample (map Some es) ts nu) q.
Proof.
  intros es ts nu k q Hk Hn. unfold refl_coef_qs, transfer_matrix_qs.
  assert (E : trans_matrices_qs (mkSample (map (fun x => Some (x * k)%C) es) ts nu) =
              trans_matrices_qs (mkSample (map Some es) ts nu)).
  { unfold trans_matrices_qs. cbn [eps_stack]. induction es as [|a es IH]; [reflexivity|].
    destruct es as [|b es]; [reflexivity|]. apply Forall_cons_iff in Hn. destruct Hn as [Ha Hn]. specialize (IH Hn).
    cbn [map tl] in IH |- *.
    change (removelast (Some (a * k)%C :: Some (b * k)%C :: map (fun x => Some (x * k)%C) es))
      with (Some (a * k)%C :: removelast (Some (b * k)%C :: map (fun x => Some (x * k)%C) es)).
    change (removelast (Some a :: Some b :: map Some es)) with (Some a :: removelast (Some b :: map Some es)).
    cbn [combine map fst snd]. f_equal; [|exact IH].
    apply Forall_cons_iff in Hn. destruct Hn as [Hb _].
    rewrite !cdiv_ok by (try apply Cmult_neq_0; assumption). f_equal. f_equal. field. split; assumption. }
  rewrite E. unfold multilayer, n_layers. cbn [eps_stack]. rewrite !map_length. reflexivity.
Qed.

Lemma slices_compatible : forall A (L : layers A), compatible (map shp (slices L)).
Proof.
  intros A L s t Hs Ht k _ _. unfold slices in *. rewrite map_map in *. apply in_map_iff in Hs, Ht.
  destruct Hs as (x & <- & _). destruct Ht as (y & <- & _). reflexivity.
Qed.
Lemma slices_joint : forall A (L : layers A), lay L <> [] -> joint (map shp (slices L)) (lsh L).
Proof.
  intros A L N. apply bshapes_joint. unfold slices. rewrite map_map. cbn [shp].
  rewrite (bshapes_incl _ [lsh L]); [apply bshapes_1| |].
  - intros x Hx. apply in_map_iff in Hx. destruct Hx as (y & <- & _). left; reflexivity.
  - intros x [<-|[]]. destruct (lay L) as [|y l]; [contradiction N; reflexivity|left; reflexivity].
Qed.

Lemma nth_sums : forall (es : list C) (a : C),
  (forall k, (k + 1 < length (a :: es))%nat -> (nth k (a :: es) (RtoC 0) + nth (k + 1) (a :: es) (RtoC 0))%C <> RtoC 0) -> sums_nonzero a es.
Proof.
  induction es as [|b es IH]; intros a H; [exact I|]. split.
  - specialize (H 0%nat). cbn in H. rewrite Cplus_comm. apply H. lia.
  - apply IH. intros k Hk. specialize (H (S k)). cbn [length nth Nat.add] in H. apply H. cbn in Hk. lia.
Qed.

(** C06: rebuilding any consistent sample from its own [beta_stack] with an
    environment [e] is accepted; the permittivities are multiplied by
    e / eps_stack[0], the thicknesses stay, and the quasistatic reflection
    coefficient is the same at every momentum.  (At every index at which the
    permittivities are finite, non-zero and no two adjacent ones cancel.) *)
Lemma C06_rebuilt_proof : forall D o e t nu, consistent o -> o_t o = Some t -> e <> RtoC 0 ->
  exists bl o', get_beta o = Ok bl /\
  init D None (Some (slices bl)) (Some (slices t)) (Some (scalar (Some e))) nu = Ok o' /\
  forall i (a : C) es, eps_stack (sample_at o i) = map Some (a :: es) ->
    Forall (fun x => x <> RtoC 0) (a :: es) ->
    (forall k, (k + 1 < length (a :: es))%nat -> (nth k (a :: es) (RtoC 0) + nth (k + 1) (a :: es) (RtoC 0))%C <> RtoC 0) ->
    eps_stack (sample_at o' i) = map (fun x => Some (x * e / a)%C) (a :: es) /\
    t_stack (sample_at o' i) = t_stack (sample_at o i) /\
    forall q, refl_coef_qs (sample_at o' i) q = refl_coef_qs (sample_at o i) q.
Proof.
  intros D o e t nu Hc Ht He. pose proof Hc as (el & t' & Ee & Et & L & Lt).
  assert (t' = t) by congruence. subst t'.
  destruct (get_beta_at o el Ee) as (bl & Hb & Hs & Hl & Hbe).
  assert (Nb : lay bl <> []).
  { intro N. rewrite N in Hl. cbn in Hl. lia. }
  destruct (proj2 (C01_accepted_calls_proof D None (Some (slices bl)) (Some (slices t)) (Some (scalar (Some e))) nu)) as [o' Ho'].
  { cbn [given]. split; [apply slices_compatible|]. right. exists (slices bl), (lsh bl).
    split; [reflexivity|]. split; [reflexivity|]. split; [apply slices_joint, Nb|].
    rewrite !slices_length. split; [lia|]. split; [cbn; lia|]. intro k. left. destruct k; reflexivity. }
  exists bl, o'. split; [exact Hb|]. split; [exact Ho'|]. intros i a es Hes Hn Hsum. apply nth_sums in Hsum.
  assert (Ha : a <> RtoC 0) by (apply Forall_cons_iff in Hn; apply Hn).
  assert (E1 : eps_stack (sample_at o' i) = map (fun x => Some (x * e / a)%C) (a :: es)).
  { rewrite (aligned_core _ _ _ _ _ _ _ Ho' (slices_joint _ _ Nb)) by (cbn; lia).
    assert (Hbi : map (fun b => entry b i) (slices bl) = map Some (betas_of a es)).
    { rewrite Hbe, Hes. apply betas_read, Hsum. }
    rewrite Hbi, entry_scalar. unfold eps_from_beta.
    change (rc 1 :: cumprod_from (rc 1) (map (fun b => permitivitty b (rc 1)) (map Some (betas_of a es))))
      with (Some (RtoC 1) :: cumprod_from (Some (RtoC 1)) (map (fun b => permitivitty b (rc 1)) (map Some (betas_of a es)))).
    rewrite relative_eps by (apply betas_not_one; assumption).
    replace (1 * e)%C with (a * (e / a))%C by (field; exact Ha).
    rewrite rebuilt_seq by assumption. rewrite map_map. apply map_ext. intro x. f_equal. field. exact Ha. }
  assert (E2 : t_stack (sample_at o' i) = t_stack (sample_at o i)).
  { destruct (C01_constructed_proof _ _ _ _ _ _ _ Ho') as (_ & _ & _ & _ & _ & T & _).
    rewrite T. unfold sample_at. cbn [t_stack given]. rewrite Ht. reflexivity. }
  split; [exact E1|]. split; [exact E2|]. intro q.
  destruct (sample_at o' i) as [p1 p2 p3]. destruct (sample_at o i) as [q1 q2 q3]. cbn [eps_stack t_stack] in *.
  subst p1 p2 q1. transitivity (refl_coef_qs (mkSample (map Some (a :: es)) q2 p3) q).
  - rewrite <- (refl_qs_scaled (a :: es) q2 p3 (e / a)%C q); [|apply Cdiv_neq_0; assumption|exact Hn].
    f_equal. f_equal. apply map_ext. intro x. f_equal. field. exact Ha.
  - reflexivity.
Qed.

(** C06, concrete case: a film on a substrate. *)
Lemma C06_example_proof :
  exists o, init defaults0 (Some [scalar (rc 1); scalar (rc 2); scalar (rc 3)]) None (Some [scalar 1]) None None = Ok o /\
    consistent o /\ eps_stack (sample_at o []) = map Some [RtoC 1; RtoC 2; RtoC 3].
Proof.
  eexists. split; [reflexivity|]. split; [|reflexivity].
  do 2 eexists. repeat split; try reflexivity. 
Qed.

(** ** C51 *)
(** C51: a bulk sample given by its permittivity: environment over substrate,
    at every index, without thickness. *)
Lemma C51_permittivity_proof : forall D sub env nu, compatible [shp env; shp sub] ->
  exists o, bulk_sample D (Some sub) None (Some env) None nu = Ok o /\
    get_multilayer o = Ok false /\ o_nu o = nu /\ joint [shp env; shp sub] (eps_shape o) /\
    forall i, eps_stack (sample_at o i) = [entry env i; entry sub i] /\ t_stack (sample_at o i) = [].
Proof.
  intros D sub env nu Cm. unfold bulk_sample.
  destruct (proj2 (C01_accepted_calls_proof D (Some [env; sub]) None None (Some env) nu)) as [o Ho].
  { split; [intros s t0 []|]. left. exists [env; sub]. auto. }
  exists o. split; [exact Ho|].
  destruct (C01_constructed_proof _ _ _ _ _ _ _ Ho) as (_ & _ & _ & M & N & T & _).
  split; [apply M; reflexivity|]. split; [exact N|].
  unfold init in Ho. rewrite set_t_eq in Ho. cbn [t_value check_layers_valid o_t o_eps o_env o_nu] in Ho.
  unfold set_eps in Ho. destruct (broadcast_arrays [env; sub]) as [L|] eqn:EL; [|discriminate].
  destruct (broadcast_ok _ _ _ EL) as (J & _ & _ & Hent).
  cbn [o_t o_env o_nu] in Ho. destruct (check_layers_valid _); [|discriminate].
  assert (Eo : o_eps o = Some L) by (injection Ho as <-; reflexivity).
  split; [unfold eps_shape; rewrite Eo; exact J|].
  intro i. split; [unfold sample_at; cbn [eps_stack]; rewrite Eo; apply Hent|apply T].
Qed.

(** C51: a bulk sample given by its reflection coefficient (finite entries, not
    1), over an environment that is a number or has the axes of the
    coefficient; the reflection coefficient comes back if it is not -1 and the
    environment is not zero. *)
Lemma C51_coefficient_proof : forall D beta env nu,
  match env with Some a => fits (shp a) (shp beta) | None => True end ->
  exists o, bulk_sample D None (Some beta) env None nu = Ok o /\
    get_multilayer o = Ok false /\ o_nu o = nu /\ eps_shape o = shp beta /\
    forall i (b e : C), entry beta i = Some b -> b <> RtoC 1 ->
      match env with Some a => entry a i = Some e | None => e = d_eps_env D end ->
      eps_stack (sample_at o i) = [Some e; Some (e * (1 + b) / (1 - b))%C] /\
      t_stack (sample_at o i) = [] /\
      (b <> RtoC (-1) -> e <> RtoC 0 -> forall q, refl_coef_qs (sample_at o i) q = Ok (Some b)).
Proof.
  intros D beta env nu F. unfold bulk_sample.
  set (ev := match env with None => scalar (Some (d_eps_env D)) | Some e => e end).
  assert (F' : fits (shp ev) (shp beta)).
  { unfold ev. destruct env; [exact F|]. split; [cbn; lia|]. intro k. left. destruct k; reflexivity. }
  assert (J : joint (map shp [beta]) (shp beta)).
  { apply bshapes_joint. apply bshapes_1. }
  destruct (proj2 (C01_accepted_calls_proof D None (Some [beta]) None (Some ev) nu)) as [o Ho].
  { split; [intros s t0 []|]. right. exists [beta], (shp beta). split; [reflexivity|]. split; [reflexivity|].
    split; [exact J|]. split; [reflexivity|].
    destruct F' as [FL FD]. split; [rewrite app_length; cbn; lia|].
    intro k. destruct (Nat.lt_ge_cases k (length (shp beta))) as [K|K].
    - destruct (FD k) as [Z|Z]; [left; exact Z|right]. rewrite Z. unfold dim. rewrite app_nth1 by exact K. reflexivity.
    - left. unfold dim. apply nth_overflow. lia. }
  exists o. split; [exact Ho|].
  destruct (C01_constructed_proof _ _ _ _ _ _ _ Ho) as (_ & _ & _ & M & N & T & _).
  split; [apply M; reflexivity|]. split; [exact N|]. split.
  { destruct (init_beta _ _ _ _ _ _ Ho) as (tl & o1 & o2 & Et & E1 & Es & Eo).
    destruct (set_beta_ok_inv _ _ _ Es) as (bl & ev' & Eb & Ee & Ff).
    destruct (set_beta_stored _ _ _ _ _ _ Eb Ee Ff Es) as (_ & _ & _ & Hsh & _).
    destruct (broadcast_ok _ _ _ Eb) as (Jb & _). rewrite <- (joint_unique _ _ _ Jb J). subst o. exact Hsh. }
  intros i b e Hb H1 Hev.
  assert (Hev' : entry ev i = Some e) by (unfold ev; destruct env; [exact Hev|subst e; reflexivity]).
  assert (E1 : eps_stack (sample_at o i) = [Some e; Some (e * (1 + b) / (1 - b))%C]).
  { rewrite (aligned_core _ _ _ _ _ _ _ Ho J) by apply F'. cbn [map]. rewrite Hb, Hev'. unfold eps_from_beta.
    change (rc 1) with (Some (RtoC 1)) at 1 2.
    pose proof (relative_eps [b] e (RtoC 1)) as R. cbn [map] in R. cbn [map]. rewrite R by (repeat constructor; exact H1).
    cbn [eps_seq map]. f_equal; [f_equal; ring|]. f_equal. f_equal. unfold Cdiv. ring. }
  split; [exact E1|]. split; [apply T|]. intros H2 He q.
  assert (Et : t_stack (sample_at o i) = []) by apply T.
  destruct (sample_at o i) as [s1 s2 s3]. cbn [eps_stack t_stack] in *. subst s1 s2.
  assert (Hd : (1 - b)%C <> RtoC 0).
  { intro Z. apply H1. apply (f_equal (fun z => (RtoC 1 - z)%C)) in Z. ring_simplify in Z. exact Z. }
  assert (Hp : (1 + b)%C <> RtoC 0).
  { intro Z. apply H2. apply (f_equal (fun z => (z - RtoC 1)%C)) in Z.
    replace (RtoC (-1)) with (RtoC 0 - RtoC 1)%C by (rewrite <- RtoC_minus; f_equal; lra).
    ring_simplify in Z. rewrite Z. ring. }
  destruct (bulk_refl_any e (e * (1 + b) / (1 - b))%C s3 q) as [R _].
  { apply Cdiv_neq_0; [apply Cmult_neq_0; assumption|exact Hd]. }
  unfold stack in R. cbn [map] in R. rewrite R. f_equal.
  replace (e * (1 + b) / (1 - b))%C with (e * ((1 + b) / (1 - b)))%C by (unfold Cdiv; ring).
  apply refl_single_step; assumption.
Qed.

(** C51: giving both or neither is a ValueError, and so are thicknesses. *)
Lemma C51_rejected_proof : forall D sub beta env t nu,
  (sub = None <-> beta = None) \/ given t <> [] ->
  exists m, bulk_sample D sub beta env t nu = Raise (ValueError m).
Proof.
  intros D sub beta env t nu H. unfold bulk_sample.
  match goal with |- exists m, init _ ?e ?b _ ?v _ = _ => set (es := e); set (bs := b); set (ev := v) end.
  destruct (init D es bs t ev nu) as [o|x] eqn:E.
  2: { destruct (proj1 (C01_rejected_calls_proof D es bs t ev nu) x E) as [m ->]. exists m; reflexivity. }
  exfalso. destruct (proj1 (C01_accepted_calls_proof D es bs t ev nu) (ex_intro _ o E))
    as (_ & [(l & H1 & H2 & _ & H3)|(l & S & H1 & H2 & _ & H3 & _)]); unfold es, bs in H1, H2.
  - destruct sub as [s|]; [|discriminate]. destruct beta; [discriminate|]. injection H1 as <-.
    destruct H as [[_ H]|H]; [discriminate (H eq_refl)|]. destruct (given t); [contradiction H; reflexivity|cbn in H3; lia].
  - destruct sub as [s|]; [discriminate|]. destruct beta; [|discriminate]. injection H2 as <-.
    destruct H as [[H _]|H]; [discriminate (H eq_refl)|]. destruct (given t); [contradiction H; reflexivity|cbn in H3; lia].
Qed.

(** C51, concrete case: a substrate of reflection coefficient 1/2 has
    permittivity 3. *)
Lemma C51_example_proof :
  exists o, bulk_sample defaults0 None (Some (scalar (rc (1 / 2)))) None None None = Ok o /\
    eps_stack (sample_at o []) = [rc 1; rc 3].
Proof.
  destruct (C51_coefficient_proof defaults0 (scalar (rc (1 / 2))) None None I) as (o & Ho & _ & _ & _ & H).
  exists o. split; [exact Ho|]. destruct (H [] (RtoC (1 / 2)) (RtoC 1)) as [E _]; [reflexivity| |reflexivity|].
  - intro N. apply RtoC_inj in N. lra.
  - rewrite E. unfold rc. rewrite <- !RtoC_plus, <- !RtoC_minus, <- !RtoC_mult, <- !RtoC_div by lra.
    repeat f_equal. lra.
Qed.
