(** * Proofs: a single overflowing quadrature node spoils the averages (C53) *)
From Coq Require Import String Reals Lra Lia ZArith List Bool.
From Coquelicot Require Import Rcomplements Complex.
From Verif Require Import Num NumLemmas ModelBase ModelSample ModelTip StackLemmas Spec ModelRange SpecRange
  RangeLemmas ProofsRange ProofsRange2 ProofsRange3.
Import ListNotations.
Open Scope R_scope.

Lemma zadd_bad_r a b : zbad b -> zbad (zadd a b).
Proof. intros [H1 H2]. split; apply nf_fadd_r; assumption. Qed.
Lemma zsum_bad l : forall acc, zbad acc \/ Exists zbad l -> zbad (fold_left zadd l acc).
Proof.
  induction l as [|z l IH]; intros acc [H|H]; cbn [fold_left].
  - exact H.
  - inversion H.
  - apply IH. left. apply zadd_bad_l, H.
  - inversion H as [? ? Hz|? ? Hl]; subst.
    + apply IH. left. apply zadd_bad_r, Hz.
    + apply IH. right. exact Hl.
Qed.
Lemma zmul_nan a : zbad (zmul a (NaN, NaN)).
Proof.
  split; unfold zmul, fsub; cbn [fst snd]; rewrite !fmul_nan_r; cbn; apply nf_NaN.
Qed.
Lemma zdiv_num_bad a b : zbad a -> zbad (zdiv a b).
Proof.
  intros [H1 H2]. unfold zdiv, fsub. destruct (fge _ _); split; cbn [fst snd]; apply nf_fmul_l;
    auto using nf_fadd_l, nf_fadd_r, nf_fopp.
Qed.

(** C53. If at the momentum x / (2 z_Q) of one single quadrature node the
    topmost inner layers are too thick for the range of a double, then the
    averaged reflection coefficient is not finite, neither are the potential
    and the field, and the image depth and charge computed from them
    (phi / E and phi^2 / E) are nan, whatever the weight of that node is. *)
Lemma C53_one_node_spoils_average_proof :
  forall (es ts1 ts2 : list R) (z : R) (nodes : list (R * R)) (x w : R),
  wf es (ts1 ++ ts2) -> Forall (fun e => 0 < e /\ tame (RtoC e)) es ->
  In (x, w) nodes -> 0 < z -> 2 * z <= MAXF -> Rabs (x / (2 * z)) <= MAXF ->
  Forall (fun t => 1 <= x / (2 * z) * t) ts1 ->
  MAXF * 3 ^ length ts1 < exp (total_exponent (x / (2 * z)) ts1) ->
  let eps := map zof (map RtoC es) in let ts := map Fin (ts1 ++ ts2) in
  (exists b, zabove_surf eps ts (Fin z) nodes = Some b /\ forall r i, fst b <> Fin r /\ snd b <> Fin i) /\
  (exists phi E, zsurf_pot_and_field eps ts (Fin z) nodes = Some (phi, E) /\
     (forall r i, fst phi <> Fin r /\ snd phi <> Fin i) /\
     (forall r i, fst E <> Fin r /\ snd E <> Fin i) /\
     zdiv phi E = (NaN, NaN) /\ zdiv (zmul phi phi) E = (NaN, NaN)).
Proof.
  intros es ts1 ts2 z nodes x w Hw He Hin Hz Bz Bx Hq HB eps ts.
  pose proof (C52_thick_stack_nan_proof es ts1 ts2 (x / (2 * z)) Hw He Hq HB) as HN.
  fold eps ts in HN.
  assert (NE : exists T Ts, ztrans_matrices eps = T :: Ts).
  { unfold zrefl_qs, ztransfer_qs in HN. destruct (ztrans_matrices eps) as [|T Ts]; [discriminate|eauto]. }
  destruct NE as (T & Ts & ET).
  assert (EQ : fdiv (Fin x) (fmul (Fin 2) (Fin z)) = Fin (x / (2 * z))).
  { rewrite fmul_fin by (rewrite Rabs_pos_eq; lra). apply fdiv_fin; [lra|exact Bx]. }
  assert (IB : In (x, w, (NaN, NaN)) (zbeta_nodes eps ts (Fin z) nodes)).
  { unfold zbeta_nodes. apply in_map_iff. exists (x, w). split; [|exact Hin].
    cbn [fst]. rewrite EQ, HN. reflexivity. }
  assert (SB : forall f : R * R * cflt -> cflt, (forall v, zbad (f (v, (NaN, NaN)))) ->
            zbad (zsum (map f (zbeta_nodes eps ts (Fin z) nodes)))).
  { intros f Hf. apply zsum_bad. right. apply Exists_exists. exists (f (x, w, (NaN, NaN))). split; [|apply Hf].
    apply in_map. exact IB. }
  assert (FB : forall b, zbad b -> forall r i, fst b <> Fin r /\ snd b <> Fin i).
  { intros b [H1 H2] r i. split; auto. }
  unfold zabove_surf, zsurf_pot_and_field. rewrite ET.
  match goal with |- context [zsum (map ?f ?l)] => set (S1 := zsum (map f l)) end.
  assert (B1 : zbad S1) by (apply SB; intros v; apply zmul_nan).
  match goal with |- context [zsum (map (fun nb => zmul (rf _) _) ?l)] =>
    set (S0 := zsum (map (fun nb : R * R * cflt => zmul (rf (snd (fst nb))) (snd nb)) l)) end.
  assert (B0 : zbad S0) by (apply SB; intros v; apply zmul_nan).
  split.
  - exists S1. split; [reflexivity|]. apply FB, B1.
  - eexists. eexists. split; [reflexivity|].
    split; [apply FB, zdiv_num_bad, B0|]. split; [apply FB, zdiv_num_bad, B1|].
    split; apply zdiv_bad, zdiv_num_bad, B1.
Qed.

(** example: layers of 100 above a substrate, probed from a height of 10; the
    largest node of the default 32-point quadrature is about 112, and its
    weight is of the order of 1e-48 *)
Lemma C53_example_proof :
  exists b, zabove_surf (map zof (map RtoC [1; 2; 3; 4])) (map Fin ([100; 100] ++ [])) (Fin 10)
              [(1, 1); (112, / 10 ^ 48)] = Some b /\ forall r i, fst b <> Fin r /\ snd b <> Fin i.
Proof.
  apply (C53_one_node_spoils_average_proof [1; 2; 3; 4] [100; 100] [] 10 _ 112 (/ 10 ^ 48)).
  - reflexivity.
  - repeat (apply Forall_cons; [split; [lra|apply tame_small; lra]|]). apply Forall_nil.
  - right. left. reflexivity.
  - lra.
  - pose proof MAXF_big'. lra.
  - pose proof MAXF_big'. rewrite Rabs_pos_eq; lra.
  - repeat constructor; lra.
  - apply thick_two; lra.
Qed.
