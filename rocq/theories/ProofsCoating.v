(** * C99: optical coatings *)
From Coq Require Import String Reals Lra Lia ZArith List Bool.
From Coquelicot Require Import Rcomplements Complex.
From Verif Require Import Num NumLemmas ModelBase ModelSample ModelTip StackLemmas Spec SpecCoating
  ProofsStackQS ProofsStackQS2 ProofsStackFF ProofsStackFF2 ProofsBulkFF.
Import ListNotations.
Open Scope R_scope.

Lemma Ci_neq_0 : ((0, 1)%R : C) <> RtoC 0.
Proof. intros X. apply (f_equal snd) in X. cbn in X. lra. Qed.
Lemma exp_sum z : Cexp ((0, 1)%R * z)%C = (Ccos z + (0, 1)%R * Csin z)%C.
Proof. unfold Ccos, Csin. field. repeat split; first [exact Ci_neq_0|auto]. Qed.
Lemma exp_diff z : Cexp ((0, -1)%R * z)%C = (Ccos z - (0, 1)%R * Csin z)%C.
Proof. unfold Ccos, Csin. field. repeat split; first [exact Ci_neq_0|auto]. Qed.
Lemma Ccos_R x : Ccos (RtoC x) = RtoC (cos x).
Proof.
  unfold Ccos, Cexp, Re, Im. cbn. apply C_eq; unfold Re, Im; cbn;
    replace (0 * x - 1 * 0) with 0 by ring; replace (0 * x - -1 * 0) with 0 by ring; replace (0 * 0 + 1 * x) with x by ring; replace (0 * 0 + -1 * x) with (- x) by ring;
    rewrite exp_0, cos_neg, sin_neg; field.
Qed.
Lemma Csin_R x : Csin (RtoC x) = RtoC (sin x).
Proof.
  unfold Csin, Cexp, Re, Im. cbn. apply C_eq; unfold Re, Im; cbn;
    replace (0 * x - 1 * 0) with 0 by ring; replace (0 * x - -1 * 0) with 0 by ring; replace (0 * 0 + 1 * x) with x by ring; replace (0 * 0 + -1 * x) with (- x) by ring;
    rewrite exp_0, cos_neg, sin_neg; field.
Qed.

Lemma map_fst_comb {A B} (l : list A) : forall (l' : list B), length l = length l' -> map fst (combine l l') = l.
Proof. induction l as [|a l IH]; intros [|b l'] H; cbn in *; try discriminate; [reflexivity|]. f_equal. apply IH. now injection H. Qed.
Lemma map_snd_comb {A B} (l : list A) : forall (l' : list B), length l = length l' -> map snd (combine l l') = l'.
Proof. induction l as [|a l IH]; intros [|b l'] H; cbn in *; try discriminate; [reflexivity|]. f_equal. apply IH. now injection H. Qed.

(** ** The code and the tangential fields *)
Definition admz (p : bool) (nu q : R) (e : C) : C := admittance p (e, kz nu q e).
Lemma Mff_fields p nu q inner : forall e0 en,
  ff_regular p nu q (eps_of e0 inner en) -> (p = true -> e0 <> RtoC 0) ->
  let M := Mff p nu q e0 inner en in
  let FG := surface_fields p (map (fun et => (fst et, kz nu q (fst et))) inner ++ [(en, kz nu q en)]) (map snd inner) in
  fst FG = (c00 M + c10 M)%C /\ snd FG = (admz p nu q e0 * (c00 M - c10 M))%C.
Proof.
  induction inner as [|[e t] rest IH]; intros e0 en HR H0.
  - cbn. destruct HR as [K N]. inversion K as [|? ? K0 K1]; subst. inversion K1 as [|? ? K2 _]; subst.
    apply kz_neq_0 in K0. unfold ffactor, admz, admittance. cbn [fst snd]. split; [field; apply C2_neq_0|].
    destruct p.
    + assert (en <> RtoC 0) by (specialize (N eq_refl); unfold nonzero_below in N; cbn in N; now inversion N). field. repeat split; auto.
    + field. repeat split; auto; apply C2_neq_0.
  - assert (HR' : ff_regular p nu q (eps_of e rest en)).
    { destruct HR as [K N]. split; [now inversion K|]. intros E. specialize (N E). unfold nonzero_below in *. cbn in *. now inversion N. }
    assert (He : p = true -> e <> RtoC 0).
    { intros E. destruct HR as [_ N]. specialize (N E). unfold nonzero_below in N. cbn in N. now inversion N. }
    assert (K0 : kz nu q e0 <> RtoC 0) by (destruct HR as [K _]; inversion K; subst; now apply kz_neq_0).
    assert (Ke : kz nu q e <> RtoC 0) by (destruct HR' as [K _]; inversion K; subst; now apply kz_neq_0).
    specialize (IH e en HR' He). cbn zeta in IH. destruct IH as [IF IG].
    cbn [map app fst snd].
    assert (SF : surface_fields p ((e, kz nu q e) :: map (fun et : C * R => (fst et, kz nu q (fst et))) rest ++ [(en, kz nu q en)]) (t :: map snd rest)
      = (let FG := surface_fields p (map (fun et => (fst et, kz nu q (fst et))) rest ++ [(en, kz nu q en)]) (map snd rest) in
        let y := admz p nu q e in let phi := (kz nu q e * RtoC t)%C in
        ((fst FG * Ccos phi - (0, 1)%R * Csin phi * snd FG / y)%C, (snd FG * Ccos phi - (0, 1)%R * Csin phi * y * fst FG)%C))).
    { destruct rest as [|[e' t'] rest]; reflexivity. }
    rewrite SF. cbn zeta. cbn [fst snd]. rewrite IF, IG.
    unfold Mff. cbn [stackM]. fold (Mff p nu q e rest en). set (M := Mff p nu q e rest en).
    unfold Tff, Pff. cbn [pmul pT pP c00 c01 c10 c11]. rewrite exp_sum, exp_diff. set (c := Ccos _). set (s := Csin _).
    unfold admz, admittance, ffactor. cbn [fst snd]. destruct p.
    + specialize (H0 eq_refl). specialize (He eq_refl). split; field; auto using C2_neq_0.
    + split; field; auto using C2_neq_0.
Qed.

(** C99. The reflection and transmission coefficients of any stack, both polarizations, through the tangential fields on top
    of the coating. *)
Lemma C99_admittance_proof :
  forall (p : bool) (a : C * C) (mid : list (C * C)) (b : C * C) (ts : list R) nu0 (nu q : R) (F G : C),
  length mid = length ts ->
  Forall (fun l => is_kz nu q (fst l) (snd l) /\ principal (snd l) /\ snd l <> RtoC 0) (a :: mid ++ [b]) ->
  (p = true -> Forall (fun l => fst l <> RtoC 0) (a :: mid ++ [b])) ->
  surface_fields p (mid ++ [b]) ts = (F, G) ->
  let y := admittance p a in (y * F + G <> 0)%C ->
  let s := stack (map fst (a :: mid ++ [b])) ts nu0 in
  refl_coef s (Some q) None (Some nu) (pol p) = Ok (Some ((y * F - G) / (y * F + G))%C) /\
  trans_coef s (Some q) None (Some nu) (pol p) = Ok (Some (2 * y / (y * F + G))%C).
Proof.
  intros p a mid b ts nu0 nu q F G Hl HK Hp HF y Hy s.
  assert (KZ : forall l, In l (a :: mid ++ [b]) -> l = (fst l, kz nu q (fst l))).
  { intros l Hin. rewrite Forall_forall in HK. destruct (HK l Hin) as (Q1 & Q2 & _). rewrite <- (is_kz_principal _ _ _ _ Q1 Q2). now destruct l. }
  set (inner := combine (map fst mid) ts).
  assert (L : length (map fst mid) = length ts) by (now rewrite map_length).
  assert (E1 : map fst inner = map fst mid) by (unfold inner; now rewrite map_fst_comb).
  assert (E2 : map snd inner = ts) by (unfold inner; now rewrite map_snd_comb).
  assert (ES : map fst (a :: mid ++ [b]) = eps_of (fst a) inner (fst b)).
  { unfold eps_of. rewrite E1. cbn [map]. now rewrite map_app. }
  assert (HR : ff_regular p nu q (eps_of (fst a) inner (fst b))).
  { rewrite <- ES. split.
    - apply Forall_map. eapply Forall_impl; [|exact HK]. intros l (Q1 & _ & Q3). cbv beta. unfold is_kz in Q1. rewrite <- Q1. now apply Cmult_neq_0.
    - intros E. specialize (Hp E). unfold nonzero_below. cbn [map tl]. apply Forall_map. now inversion Hp. }
  assert (Ha : p = true -> fst a <> RtoC 0) by (intros E; specialize (Hp E); now inversion Hp).
  pose proof (Mff_fields p nu q inner (fst a) (fst b) HR Ha) as MF. cbn zeta in MF.
  assert (LL : map (fun et => (fst et, kz nu q (fst et))) inner ++ [(fst b, kz nu q (fst b))] = mid ++ [b]).
  { f_equal; [|now rewrite <- KZ by (right; apply in_or_app; right; now left)].
    rewrite <- (map_map fst (fun e => (e, kz nu q e))), E1, map_map. rewrite <- (map_id mid) at 2. apply map_ext_in.
    intros l Hin. symmetry. apply KZ. right. apply in_or_app. now left. }
  rewrite LL, E2, HF in MF. cbn [fst snd] in MF. destruct MF as [MF MG].
  assert (Ya : admz p nu q (fst a) = y) by (unfold admz, y; now rewrite <- (KZ a (or_introl eq_refl))).
  rewrite Ya in MG. set (M := Mff p nu q (fst a) inner (fst b)) in *.
  assert (S2 : (y * F + G = 2 * y * c00 M)%C) by (rewrite MF, MG; ring).
  assert (D2 : (y * F - G = 2 * y * c10 M)%C) by (rewrite MF, MG; ring).
  rewrite S2 in Hy. assert (M0 : c00 M <> RtoC 0) by (intros X; apply Hy; rewrite X; ring).
  assert (Y0 : y <> RtoC 0) by (intros X; apply Hy; rewrite X; ring).
  pose proof (transfer_matrix_explicit p (fst a) inner (fst b) nu0 nu q HR) as EM. rewrite <- ES, E2 in EM. fold s in EM. fold M in EM.
  unfold refl_coef, trans_coef. rewrite EM. cbn [rbind lift m10 m00]. unfold rc. rewrite !cdiv_ok by exact M0. rewrite S2, D2.
  split; f_equal; f_equal; field; auto.
Qed.
