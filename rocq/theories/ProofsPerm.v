(** * Proofs: Lorentz and Drude permittivities *)
From Coq Require Import String Reals Lra Lia ZArith List Bool.
From Coquelicot Require Import Rcomplements Complex.
From Verif Require Import Num NumLemmas LimLemmas ModelBase ModelSample StackLemmas Spec ProofsSym ProofsPassive.
Import ListNotations.
Open Scope R_scope.

(** The detuning denominator nu_j^2 - nu^2 - i gamma nu *)
Lemma lorentz_val nu nu_j g (A e : R) f :
  (nu_j ^ 2 - nu ^ 2, - (g * nu)) <> RtoC 0 ->
  lorentz_perm nu nu_j g (Some A) None f (Some e) = Ok (Some (RtoC e + RtoC A / (nu_j ^ 2 - nu ^ 2, - (g * nu))%R)%C).
Proof.
  intros H. unfold lorentz_perm. unfold rpow, rr, rsub, ofR, rc, cmul, csub. cbn [dflt rbind olift1 olift2].
  assert (E : (RtoC (nu_j ^ 2 - nu ^ 2) - (0, 1)%R * RtoC g * RtoC nu)%C = (nu_j ^ 2 - nu ^ 2, - (g * nu))).
  { apply C_eq; unfold Re, Im; simpl; ring. }
  rewrite E. rewrite cdiv_ok by exact H. reflexivity.
Qed.
Lemma lorentz_plasma nu nu_j g p f e :
  lorentz_perm nu nu_j g None (Some p) f e = lorentz_perm nu nu_j g (Some (dflt 1 f * p ^ 2)) None f e.
Proof. reflexivity. Qed.
Lemma lorentz_einf nu nu_j g a p f e :
  lorentz_perm nu nu_j g a p f e = lorentz_perm nu nu_j g a p f (Some (dflt 1 e)).
Proof. reflexivity. Qed.

(** C46. lorentz_perm raises exactly when the oscillator strength is given
    twice or not at all, and otherwise returns a value. *)
Lemma C46_lorentz_raises_proof :
  forall (nu nu_j gamma_j : R) (A_j nu_plasma f_j eps_inf : option R),
  (A_j = None <-> nu_plasma = None) <->
  (exists m, lorentz_perm nu nu_j gamma_j A_j nu_plasma f_j eps_inf = Raise (ValueError m)).
Proof.
  intros. destruct A_j as [a|], nu_plasma as [p|]; cbn; split; intros H.
  - eexists; reflexivity.
  - split; discriminate.
  - destruct H as [_ H]. discriminate (H eq_refl).
  - destruct H as [m H]. discriminate.
  - destruct H as [H _]. discriminate (H eq_refl).
  - destruct H as [m H]. discriminate.
  - eexists; reflexivity.
  - tauto.
Qed.

(** C46. The value: eps_inf + A / (nu_j^2 - nu^2 - i gamma nu), with A = A_j,
    or A = f_j nu_plasma^2; omitted f_j and eps_inf are 1. *)
Lemma C46_lorentz_value_proof :
  forall (nu nu_j gamma_j : R) (A_j nu_plasma f_j eps_inf : option R) (A : R),
  (A_j = Some A /\ nu_plasma = None) \/
  (A_j = None /\ exists p, nu_plasma = Some p /\ A = given_or 1 f_j * p * p) ->
  (RtoC (nu_j * nu_j) - RtoC (nu * nu) - (0, 1)%R * RtoC gamma_j * RtoC nu <> 0)%C ->
  lorentz_perm nu nu_j gamma_j A_j nu_plasma f_j eps_inf
  = Ok (Some (RtoC (given_or 1 eps_inf) + RtoC A / (RtoC (nu_j * nu_j) - RtoC (nu * nu) - (0, 1)%R * RtoC gamma_j * RtoC nu))%C).
Proof.
  intros nu nu_j g A_j p f e A HA HD.
  assert (E : (RtoC (nu_j * nu_j) - RtoC (nu * nu) - (0, 1)%R * RtoC g * RtoC nu)%C = (nu_j ^ 2 - nu ^ 2, - (g * nu))).
  { apply C_eq; unfold Re, Im; simpl; ring. }
  rewrite E in *. destruct HA as [[-> ->]|[-> [q [-> ->]]]].
  - rewrite lorentz_einf, lorentz_val by exact HD. reflexivity.
  - rewrite lorentz_plasma, lorentz_einf, lorentz_val by exact HD.
    replace (dflt 1 f * q ^ 2) with (given_or 1 f * q * q) by (change (dflt 1 f) with (given_or 1 f); ring). reflexivity.
Qed.

Lemma Cadd_div_opp (a b d : C) : d <> RtoC 0 -> (a + b / - d = a - b / d)%C.
Proof.
  intros N. assert (N' : (- d <> 0)%C).
  { intros H. apply N. replace d with (- - d)%C by ring. rewrite H. ring. }
  field. auto.
Qed.

(** C46. drude_perm is eps_inf - nu_plasma^2 / (nu^2 + i gamma nu). *)
Lemma C46_drude_value_proof :
  forall (nu nu_plasma gamma : R) (eps_inf : option R), nu <> 0 ->
  drude_perm nu nu_plasma gamma eps_inf
  = Ok (Some (RtoC (given_or 1 eps_inf) - RtoC (nu_plasma * nu_plasma) / (RtoC (nu * nu) + (0, 1)%R * RtoC gamma * RtoC nu))%C).
Proof.
  intros nu p g e Hn. unfold drude_perm. rewrite lorentz_plasma, lorentz_val.
  2:{ apply C_neq_0. left. nra. }
  cbn [dflt]. change (dflt 1 e) with (given_or 1 e). do 2 f_equal.
  assert (E : (RtoC (nu * nu) + (0, 1)%R * RtoC g * RtoC nu)%C = (nu * nu, g * nu)).
  { apply C_eq; unfold Re, Im; simpl; ring. }
  assert (N : (nu * nu, g * nu) <> RtoC 0) by (apply C_neq_0; left; nra).
  rewrite E. replace ((0 ^ 2 - nu ^ 2)%R, (- (g * nu))%R) with (- (nu * nu, g * nu)%R)%C.
  2:{ apply C_eq; unfold Re, Im; simpl; ring. }
  replace (1 * p ^ 2)%R with (p * p)%R by ring.
  apply Cadd_div_opp. exact N.
Qed.
(** C46. ... and it is non-finite at nu = 0, whatever the damping. *)
Lemma C46_drude_static_proof :
  forall (nu_plasma gamma : R) (eps_inf : option R),
  drude_perm 0 nu_plasma gamma eps_inf = Ok None.
Proof.
  intros. unfold drude_perm, lorentz_perm. unfold rpow, rr, rsub, ofR, rc, cmul, csub. cbn [dflt rbind olift1 olift2].
  match goal with |- context [cdiv _ (Some ?x)] => replace x with (RtoC 0) end.
  - rewrite cdiv_zero, cadd_None_r. reflexivity.
  - apply C_eq; unfold Re, Im; simpl; ring.
Qed.

Lemma lorentz_im nu nu_j g (A e : R) : (nu_j ^ 2 - nu ^ 2, - (g * nu)) <> RtoC 0 ->
  Im (RtoC e + RtoC A / (nu_j ^ 2 - nu ^ 2, - (g * nu))%R)%C
  = A * (g * nu) / ((nu_j ^ 2 - nu ^ 2) ^ 2 + (g * nu) ^ 2).
Proof.
  intros H. assert (D : (nu_j ^ 2 - nu ^ 2) ^ 2 + (g * nu) ^ 2 <> 0).
  { intros E. apply H. assert (E1 : nu_j ^ 2 - nu ^ 2 = 0) by nra. assert (E2 : g * nu = 0) by nra.
    rewrite E1, E2, Ropp_0. reflexivity. }
  set (a := nu_j ^ 2 - nu ^ 2) in *. set (b := g * nu) in *.
  unfold Im. simpl. field. simpl in D. lra.
Qed.

(** C46. An oscillator with positive strength and damping absorbs: its
    permittivity has positive imaginary part at every positive frequency. *)
Lemma C46_passive_proof :
  forall (nu nu_j gamma_j A : R) (eps_inf : option R), 0 < A -> 0 < gamma_j -> 0 < nu ->
  exists e : C, lorentz_perm nu nu_j gamma_j (Some A) None None eps_inf = Ok (Some e) /\ 0 < Im e.
Proof.
  intros nu nu_j g A e HA Hg Hn. assert (Hgn : 0 < g * nu) by (now apply Rmult_lt_0_compat).
  assert (N : (nu_j ^ 2 - nu ^ 2, - (g * nu)) <> RtoC 0) by (apply C_neq_0; right; lra).
  eexists. split; [rewrite lorentz_einf; apply lorentz_val; exact N|]. rewrite lorentz_im by exact N.
  apply Rdiv_lt_0_compat; [now apply Rmult_lt_0_compat|]. 
  pose proof (pow2_ge_0 (nu_j ^ 2 - nu ^ 2)). assert (0 < (g * nu) ^ 2) by (apply pow_lt; exact Hgn). lra.
Qed.
Lemma C46_passive_drude_proof :
  forall (nu nu_plasma gamma : R) (eps_inf : option R), nu_plasma <> 0 -> 0 < gamma -> 0 < nu ->
  exists e : C, drude_perm nu nu_plasma gamma eps_inf = Ok (Some e) /\ 0 < Im e.
Proof.
  intros nu p g e Hp Hg Hn. unfold drude_perm. rewrite lorentz_plasma.
  destruct (C46_passive_proof nu 0 g (dflt 1 None * p ^ 2) (Some (dflt 1 e))) as [x Hx]; auto.
  - cbn [dflt]. assert (0 < p ^ 2) by (apply pow2_gt_0; exact Hp). lra.
  - exists x. exact Hx.
Qed.

(** C46. The response is real in time: eps(-nu) is the conjugate of eps(nu). *)
Lemma C46_reality_proof :
  forall (nu nu_j gamma_j : R) (A_j nu_plasma f_j eps_inf : option R),
  lorentz_perm (- nu) nu_j gamma_j A_j nu_plasma f_j eps_inf
  = map_res conjV (lorentz_perm nu nu_j gamma_j A_j nu_plasma f_j eps_inf).
Proof.
  assert (H : forall nu nu_j g A e, lorentz_perm (- nu) nu_j g (Some A) None None (Some e)
              = map_res conjV (lorentz_perm nu nu_j g (Some A) None None (Some e))).
  { intros. unfold lorentz_perm. unfold rpow, rr, rsub, ofR, rc, cmul, csub. cbn [dflt rbind olift1 olift2 map_res].
    set (d := (RtoC (nu_j ^ 2 - nu ^ 2) - (0, 1)%R * RtoC g * RtoC nu)%C).
    replace (RtoC (nu_j ^ 2 - (- nu) ^ 2) - (0, 1)%R * RtoC g * RtoC (- nu))%C with (Cconj d).
    2:{ unfold d. apply C_eq; unfold Re, Im, Cconj; simpl; ring. }
    f_equal. unfold cdiv. destruct (Ceq_dec (Cconj d) (RtoC 0)) as [E|E]; destruct (Ceq_dec d (RtoC 0)) as [E'|E']; cbn [cadd olift2 conjV].
    - reflexivity.
    - exfalso. apply E'. replace d with (Cconj (Cconj d)) by (apply C_eq; unfold Re, Im, Cconj; simpl; ring). rewrite E, Cconj_R. reflexivity.
    - exfalso. apply E. rewrite E', Cconj_R. reflexivity.
    - rewrite Cconj_plus, Cconj_R, Cconj_div, Cconj_R by exact E'. reflexivity. }
  intros nu nu_j g [A|] [p|] f e; try reflexivity.
  - rewrite !(lorentz_einf _ _ _ _ _ _ e). apply H.
  - rewrite !lorentz_plasma, !(lorentz_einf _ _ _ _ _ _ e). apply H.
Qed.

(** C46. At high frequency only eps_inf is left. *)
Lemma C46_high_frequency_proof :
  forall (nu_j gamma_j A : R) (eps_inf : option R) (eps : R), 0 < eps ->
  exists N, forall nu, N < nu ->
  exists e : C, lorentz_perm nu nu_j gamma_j (Some A) None None eps_inf = Ok (Some e) /\
                Cmod (e - RtoC (given_or 1 eps_inf))%C < eps.
Proof.
  intros nu_j g A e eps He.
  assert (G : forall K, exists M, forall nu, at_inf M nu -> K < Cmod (nu_j ^ 2 - nu ^ 2, - (g * nu))).
  { intros K. exists (Rabs nu_j + 1 + Rabs K). intros nu Hn. unfold at_inf in Hn.
    eapply Rlt_le_trans; [|apply Cmod_ge_Re]. unfold Re. cbn [fst].
    pose proof (Rabs_pos nu_j). pose proof (Rabs_pos K). pose proof (Rle_abs K).
    rewrite <- Rabs_Ropp. eapply Rlt_le_trans; [|apply Rle_abs].
    rewrite <- (pow2_abs nu_j).
    replace (- (Rabs nu_j ^ 2 - nu ^ 2)) with ((nu - Rabs nu_j) * (nu + Rabs nu_j)) by ring. nra. }
  assert (T : tends at_inf (fun nu => RtoC (given_or 1 e) + RtoC A * / (nu_j ^ 2 - nu ^ 2, - (g * nu))%R)%C (RtoC (given_or 1 e) + RtoC A * 0)%C).
  { apply tends_plus; [exact mono_inf|apply tends_const|]. apply tends_scal; [exact mono_inf|]. apply tends_inv_0. exact G. }
  replace (RtoC (given_or 1 e) + RtoC A * 0)%C with (RtoC (given_or 1 e)) in T by ring.
  destruct (T eps He) as [M1 H1]. destruct (G 0) as [M2 H2]. exists (Rmax M1 M2). intros nu Hn.
  assert (N1 : M1 < nu) by (eapply Rle_lt_trans; [apply Rmax_l|exact Hn]).
  assert (N2 : M2 < nu) by (eapply Rle_lt_trans; [apply Rmax_r|exact Hn]).
  eexists. split; [|exact (H1 nu N1)]. rewrite lorentz_einf. change (dflt 1 e) with (given_or 1 e).
  rewrite lorentz_val; [reflexivity|]. apply Cmod_gt_0. exact (H2 nu N2).
Qed.

(** C46. A bulk sample of any absorbing material in a real positive
    environment e0 has Im beta = 2 e0 Im e / |e + e0|^2 > 0. *)
Lemma C46_absorbing_bulk_proof :
  forall (e0 : R) (e : C) nu q, 0 < e0 -> 0 < Im e ->
  exists b : C, refl_coef_qs (stack [RtoC e0; e] [] nu) q = Ok (Some b) /\
    Im b = 2 * e0 * Im e / (Cmod (e + RtoC e0)%C) ^ 2 /\ 0 < Im b.
Proof.
  intros e0 [x y] nu q H0 Hy. unfold Im in Hy. cbn [snd] in Hy.
  assert (D : 0 < (x + e0) ^ 2 + y ^ 2) by (pose proof (pow2_ge_0 (x + e0)); assert (0 < y ^ 2) by (apply pow_lt; exact Hy); lra).
  exists (((x, y) - RtoC e0) / ((x, y) + RtoC e0))%C. split; [|].
  - apply bulk_qs.
    + apply C_neq_0. lra.
    + apply C_neq_0. simpl. right. lra.
  - assert (E : Im (((x, y) - RtoC e0) / ((x, y) + RtoC e0))%C = 2 * e0 * Im (x, y) / Cmod ((x, y) + RtoC e0)%C ^ 2).
    { rewrite Cmod_sqr. unfold Im, Re. simpl. field. simpl in D. lra. }
    split; [exact E|]. rewrite E. apply Rdiv_lt_0_compat.
    + unfold Im. cbn [snd]. apply Rmult_lt_0_compat; lra.
    + apply pow_lt. apply Cmod_gt_0. apply C_neq_0. simpl. right. lra.
Qed.
(** C46. Example: a phonon resonance at its centre frequency *)
Lemma C46_example_proof :
  lorentz_perm 2 2 (1/4) (Some 1) None None (Some 3) = Ok (Some (3, 2)) /\
  drude_perm 1 2 1 None = Ok (Some (-1, 2)).
Proof.
  split.
  - rewrite lorentz_val by (apply C_neq_0; right; lra). do 2 f_equal. apply C_eq; unfold Re, Im; simpl; field.
  - rewrite C46_drude_value_proof by lra. do 2 f_equal. apply C_eq; unfold Re, Im; simpl; field.
Qed.
