(** * Proofs: signed zeros (C82) *)
From Coq Require Import String Reals Lra Lia ZArith List Bool.
From Coquelicot Require Import Rcomplements Complex.
From Verif Require Import Num NumLemmas ModelBase ModelSample StackLemmas Spec ProofsStackQS ProofsStackFF ModelSigned SpecSigned.
Import ListNotations.
Open Scope R_scope.

(** ** Values *)
Lemma val_add a b : val (s_add a b) = val a + val b. Proof. reflexivity. Qed.
Lemma value_mul a b : value (z_mul a b) = (value a * value b)%C.
Proof. reflexivity. Qed.
Lemma value_add a b : value (z_add a b) = (value a + value b)%C.
Proof. reflexivity. Qed.
Lemma value_sub a b : value (z_sub a b) = (value a - value b)%C.
Proof. reflexivity. Qed.
Lemma value_real x : value (of_real x) = RtoC x.
Proof. reflexivity. Qed.
Lemma Cdiv_parts (a b c d : R) : c * c + d * d <> 0 ->
  ((a, b) / (c, d))%C = ((a * c + b * d) / (c * c + d * d), (b * c - a * d) / (c * c + d * d)).
Proof.
  intros H. unfold Cdiv, Cinv, Cmult; cbn [fst snd].
  apply C_eq; unfold Re, Im; cbn [fst snd]; field; repeat split; nra.
Qed.
Lemma valueV_div a b : valueV (z_div a b) = (Some (value a) / Some (value b))%cv.
Proof.
  unfold z_div, cdiv. destruct a as [[a sa] [a' sa']], b as [[b sb] [b' sb']].
  unfold value; cbn [sre sim val minus].
  destruct (Rle_dec (Rabs b') (Rabs b)) as [H|H].
  - destruct (Req_EM_T b 0) as [->|Hb].
    + assert (b' = 0).
      { rewrite Rabs_R0 in H. pose proof (Rabs_pos b'). destruct (Req_EM_T b' 0); [assumption|].
        pose proof (Rabs_pos_lt b' n). lra. }
      subst b'. destruct (Ceq_dec (0, 0) (RtoC 0)) as [_|N]; [reflexivity|destruct (N eq_refl)].
    + destruct (Ceq_dec (b, b') (RtoC 0)) as [E|_]; [injection E as -> _; lra|].
      assert (Hd : b * b + b' * b' <> 0) by nra.
      cbn [valueV olift1]. f_equal. rewrite Cdiv_parts by exact Hd.
      unfold value; cbn. apply C_eq; unfold Re, Im; cbn; field; repeat split; trivial; lra.
  - assert (Hb : b' <> 0). { intros ->. apply H. rewrite Rabs_R0. apply Rabs_pos. }
    destruct (Ceq_dec (b, b') (RtoC 0)) as [E|_]; [injection E as _ ->; lra|].
    assert (Hd : b * b + b' * b' <> 0) by nra.
    cbn [valueV olift1]. f_equal. rewrite Cdiv_parts by exact Hd.
    unfold value; cbn. apply C_eq; unfold Re, Im; cbn; field; repeat split; trivial; lra.
Qed.
Lemma valueV_mul a b : valueV (olift2 z_mul a b) = (valueV a * valueV b)%cv.
Proof. destruct a, b; reflexivity. Qed.
Lemma valueV_perm b e : valueV (s_permitivitty b e) = permitivitty (Some (value b)) (Some (value e)).
Proof. unfold s_permitivitty. rewrite valueV_div. reflexivity. Qed.
Lemma valueV_cumprod l : forall a, map valueV (s_cumprod_from a l) = cumprod_from (valueV a) (map valueV l).
Proof. induction l as [|x l IH]; intro a; [reflexivity|]. cbn. rewrite <- valueV_mul. f_equal. apply IH. Qed.
Lemma cmul_1_l' x : (rc 1 * x)%cv = x.
Proof. destruct x as [x|]; [|reflexivity]. cbn. f_equal. ring. Qed.

(** C82.  Signs of zeros change no value of the conversions between permittivities
    and reflection coefficients. *)
Lemma C82_values_proof : forall (b e : scomplex) (env : scomplex) (bs es : list scomplex) ts nu,
  valueV (s_permitivitty b e) = permitivitty (Some (value b)) (Some (value e)) /\
  valueV (s_refl_coef_qs_single b e) = refl_coef_qs_single (Some (value b)) (Some (value e)) /\
  map valueV (s_eps_from_beta env bs) = eps_from_beta (Some (value env)) (map (fun b => Some (value b)) bs) /\
  map valueV (s_beta_stack es) = beta_stack (plain_sample (mkSS es ts nu)).
Proof.
  intros b e env bs es ts nu. split; [apply valueV_perm|]. split; [|split].
  - unfold s_refl_coef_qs_single. rewrite valueV_div. reflexivity.
  - unfold s_eps_from_beta, eps_from_beta. rewrite map_map.
    rewrite (map_ext _ (fun x => (valueV x * Some (value env))%cv)) by (intro x; now rewrite valueV_mul).
    rewrite <- (map_map valueV (fun x => (x * Some (value env))%cv)). f_equal. cbn [map]. f_equal.
    destruct bs as [|x bs]; [reflexivity|]. cbn [map s_cumprod cumprod_from]. rewrite cmul_1_l', valueV_perm. f_equal.
    rewrite valueV_cumprod, valueV_perm. f_equal. rewrite !map_map. apply map_ext. intro y. apply valueV_perm.
  - unfold s_beta_stack, beta_stack, plain_sample. cbn [eps_stack s_eps_stack].
    rewrite map_map.
    assert (Q : forall l l' : list scomplex,
       map (fun p => valueV (s_refl_coef_qs_single (fst p) (snd p))) (combine l l') =
       map (fun p => refl_coef_qs_single (fst p) (snd p))
         (combine (map (fun e => Some (value e)) l) (map (fun e => Some (value e)) l'))).
    { induction l as [|x l IH]; intros [|y l']; cbn; trivial. f_equal; [|apply IH].
      unfold s_refl_coef_qs_single. rewrite valueV_div. reflexivity. }
    rewrite Q. f_equal. f_equal.
    + induction es as [|x [|y es] IH]; [reflexivity|reflexivity|]. cbn in IH |- *. f_equal. exact IH.
    + destruct es; reflexivity.
Qed.

(** ** The branch of the square root *)
Lemma signed_proper x s : proper (signed x s).
Proof. unfold proper, signed; cbn. destruct (Rlt_dec x 0), (Rlt_dec 0 x); split; intros; trivial; exfalso; lra. Qed.
Lemma value_sqrt z : proper (sim z) ->
  value (z_sqrt z) = if minus (sim z) then
                       (if Rlt_dec (val (sim z)) 0 then Csqrt (value z)
                        else (sqrt ((Cmod (value z) + val (sre z)) / 2), - sqrt ((Cmod (value z) - val (sre z)) / 2)))
                     else Csqrt (value z).
Proof.
  intros [P1 P2]. unfold z_sqrt, Csqrt, value at 1. cbn [sre sim val plus signed].
  change (Re (value z)) with (val (sre z)). change (Im (value z)) with (val (sim z)).
  destruct (minus (sim z)) eqn:E; cbn [val signed].
  - destruct (Rlt_dec (val (sim z)) 0); [|reflexivity]. destruct (Rle_dec 0 (val (sim z))); [lra|].
    apply C_eq; unfold Re, Im; cbn; ring.
  - destruct (Rle_dec 0 (val (sim z))) as [H|H]; [apply C_eq; unfold Re, Im; cbn; ring|].
    apply Rnot_le_lt in H. discriminate (P1 H).
Qed.
Lemma Csqrt_sides z : snd z = 0 -> fst z < 0 -> Csqrt z = (0, sqrt (- fst z)).
Proof.
  destruct z as [x y]; cbn; intros -> Hx.
  change (x, 0) with (RtoC x). replace x with (- (sqrt (- x)) ^ 2).
  - rewrite Csqrt_neg by apply sqrt_pos. f_equal. f_equal. cbn. rewrite Rmult_1_r, sqrt_sqrt; lra.
  - cbn. rewrite Rmult_1_r, sqrt_sqrt; lra.
Qed.
Lemma Cmod_sides (x : R) : Cmod (x, 0) = Rabs x.
Proof. apply (Cmod_R x). Qed.

(** the argument of the square root *)
Definition kz2 (nu q : R) (e : scomplex) : scomplex := z_sub (z_mul e (of_real (nu ^ 2))) (of_real (q ^ 2)).
Lemma kz2_value nu q e : value (kz2 nu q e) = (value e * RtoC (nu ^ 2) - RtoC (q ^ 2))%C.
Proof. reflexivity. Qed.
Lemma kz2_im nu q e : val (sim (kz2 nu q e)) = val (sim e) * nu ^ 2.
Proof. unfold kz2; cbn. ring. Qed.
Lemma kz2_re nu q e : val (sre (kz2 nu q e)) = val (sre e) * nu ^ 2 - q ^ 2.
Proof. unfold kz2; cbn. ring. Qed.
Lemma signed_zero s : signed 0 s = mkS 0 s.
Proof. unfold signed. destruct (Rlt_dec 0 0); [lra|]. reflexivity. Qed.
Lemma plus_0 : plus 0 = mkS 0 false. Proof. apply signed_zero. Qed.
Lemma plus_pos x : 0 < x -> plus x = mkS x false.
Proof. intro H. unfold plus, signed. destruct (Rlt_dec x 0); [lra|]. destruct (Rlt_dec 0 x); [reflexivity|lra]. Qed.
Lemma plus_nonneg x : 0 <= x -> plus x = mkS x false.
Proof. intros [H| <-]; [now apply plus_pos|apply plus_0]. Qed.
Lemma plus_neg x : x < 0 -> plus x = mkS x true.
Proof. intro H. unfold plus, signed. destruct (Rlt_dec x 0); [reflexivity|lra]. Qed.

Lemma s_mul_0_r a s : s_mul a (mkS 0 s) = mkS 0 (xorb (minus a) s).
Proof. unfold s_mul; cbn. rewrite Rmult_0_r. apply signed_zero. Qed.
Lemma s_mul_0_l a s : s_mul (mkS 0 s) a = mkS 0 (xorb s (minus a)).
Proof. unfold s_mul; cbn. rewrite Rmult_0_l. apply signed_zero. Qed.
Lemma is_zero_0 s : is_zero (mkS 0 s) = true.
Proof. unfold is_zero; cbn. destruct (Req_EM_T 0 0); congruence. Qed.
Lemma s_add_0 s s' : s_add (mkS 0 s) (mkS 0 s') = mkS 0 (s && s').
Proof. unfold s_add; rewrite !is_zero_0; cbn. rewrite Rplus_0_r. apply signed_zero. Qed.
Lemma s_sub_0 s s' : s_sub (mkS 0 s) (mkS 0 s') = mkS 0 (s && negb s').
Proof. unfold s_sub; rewrite !is_zero_0; cbn. rewrite Rminus_0_r. apply signed_zero. Qed.

(** with an exact zero imaginary part: the sign of the zero the argument has *)
Lemma kz2_zero nu q e : val (sim e) = 0 ->
  minus (sim (kz2 nu q e)) = minus (sre e) && minus (sim e).
Proof.
  destruct e as [a [y s]]; cbn [sim sre val]; intros ->. unfold kz2, z_sub, z_mul, of_real. cbn [sre sim].
  rewrite plus_0, s_mul_0_r, s_mul_0_l, (plus_nonneg (nu ^ 2)) by apply pow2_ge_0. cbn [minus].
  rewrite s_add_0, s_sub_0, !xorb_false_r. cbn [minus negb]. apply andb_true_r.
Qed.
Lemma kz2_proper nu q e : proper (sim (kz2 nu q e)).
Proof. apply signed_proper. Qed.

Lemma s_nu_z_value nu q e : proper_c e -> nu <> 0 -> ~ below_cut e -> value (s_nu_z nu q e) = kz nu q (value e).
Proof.
  intros [Pr Pi] Hnu Hb. unfold s_nu_z, kz. fold (kz2 nu q e). rewrite <- kz2_value.
  rewrite value_sqrt by apply kz2_proper.
  destruct (minus (sim (kz2 nu q e))) eqn:E; [|reflexivity].
  destruct (Rlt_dec (val (sim (kz2 nu q e))) 0) as [_|H]; [reflexivity|].
  assert (N2 : 0 < nu ^ 2) by (apply pow2_gt_0; exact Hnu).
  destruct (Req_EM_T (val (sim e)) 0) as [Z|Z].
  - rewrite kz2_zero in E by exact Z. apply andb_true_iff in E. destruct E as [E1 E2].
    destruct Hb; repeat split; assumption.
  - exfalso. rewrite kz2_im in H. destruct (Rtotal_order (val (sim e)) 0) as [Hn|[?|Hp]]; try lra; [nra|].
    destruct (kz2_proper nu q e) as [_ Q]. rewrite Q in E by (rewrite kz2_im; nra). discriminate.
Qed.
Lemma kz_real_neg nu q x : x * nu ^ 2 - q ^ 2 < 0 -> kz nu q (RtoC x) = (0, sqrt (q ^ 2 - x * nu ^ 2)).
Proof.
  intro H. unfold kz. rewrite Csqrt_sides; cbn.
  - f_equal. f_equal. cbn. ring.
  - ring.
  - cbn in H. lra.
Qed.
(** below the cut the wavevector has the other sign *)
Lemma s_nu_z_below nu q e : proper_c e -> below_cut e -> value (s_nu_z nu q e) = (- kz nu q (value e))%C.
Proof.
  intros [Pr Pi] (B1 & B2 & B3). unfold s_nu_z. fold (kz2 nu q e).
  rewrite value_sqrt by apply kz2_proper. rewrite kz2_zero, B1, B3 by exact B2. cbn [andb].
  destruct (Rlt_dec (val (sim (kz2 nu q e))) 0) as [H|_]; [rewrite kz2_im, B2 in H; lra|].
  assert (Hr : val (sre e) <= 0).
  { destruct (Rle_dec (val (sre e)) 0); trivial. destruct Pr as [_ Pr]. rewrite Pr in B1 by lra. discriminate. }
  assert (E : value e = RtoC (val (sre e))) by (unfold value; rewrite B2; reflexivity).
  rewrite kz2_value, kz2_re, E.
  set (x := val (sre e)) in *. pose proof (pow2_ge_0 nu). pose proof (pow2_ge_0 q).
  unfold kz. replace (RtoC x * RtoC (nu ^ 2) - RtoC (q ^ 2))%C with (RtoC (- (sqrt (q ^ 2 - x * nu ^ 2)) ^ 2)).
  2:{ rewrite <- !RtoC_mult, <- RtoC_minus. f_equal. rewrite <- Rsqr_pow2, Rsqr_sqrt by nra. ring. }
  rewrite Csqrt_neg by apply sqrt_pos. rewrite Cmod_R, Rabs_Ropp, Rabs_right by (apply Rle_ge, pow2_ge_0).
  rewrite <- Rsqr_pow2, Rsqr_sqrt by nra.
  replace ((q ^ 2 - x * nu ^ 2 + (x * nu ^ 2 - q ^ 2)) / 2) with 0 by field.
  replace ((q ^ 2 - x * nu ^ 2 - (x * nu ^ 2 - q ^ 2)) / 2) with (q ^ 2 - x * nu ^ 2) by field.
  rewrite sqrt_0. apply C_eq; unfold Re, Im; cbn; ring.
Qed.

(** ** Transfer matrices for given wavevectors *)
Definition consec {A} (l : list A) : list (A * A) := combine (removelast l) (tl l).
Lemma consec_cons {A} (l0 : A) l t rest ln :
  consec (eps_of l0 ((l, t) :: rest) ln) = (l0, l) :: consec (eps_of l rest ln).
Proof. reflexivity. Qed.
Definition FL (p : bool) (a b : C * C) : mat :=
  trans_matrix (if p then Some (fst a) * Some (snd b) / (Some (fst b) * Some (snd a))
                else Some (snd b) / Some (snd a))%cv.
Lemma FL_ok p a b : okl p a b -> FL p a b = lift (TL p a b).
Proof.
  intros [H1 H2]. unfold FL, TL, lfactor. destruct p.
  - change (Some (fst b) * Some (snd a))%cv with (Some (fst b * snd a)%C).
    change (Some (fst a) * Some (snd b))%cv with (Some (fst a * snd b)%C).
    rewrite cdiv_ok by auto. apply trans_matrix_Some.
  - rewrite cdiv_ok by auto. apply trans_matrix_Some.
Qed.
Lemma FL_bad p a b : ~ okl p a b -> FL p a b = bad.
Proof.
  intros H. rewrite <- trans_matrix_None. unfold FL. f_equal. unfold okl in H. destruct p; unfold cdiv; cbn.
  - destruct (Ceq_dec (fst b * snd a) (RtoC 0)) as [_|N]; [reflexivity|]. destruct H. split.
    + intros E. apply N. rewrite E. ring.
    + intros _ E. apply N. rewrite E. ring.
  - destruct (Ceq_dec (snd a) (RtoC 0)) as [_|N]; [reflexivity|]. destruct H. split; [exact N|discriminate].
Qed.
Lemma okl_dec p a b : {okl p a b} + {~ okl p a b}.
Proof.
  unfold okl. destruct (Ceq_dec (snd a) (RtoC 0)) as [E|E]; [right; tauto|].
  destruct p; [|left; split; [exact E|discriminate]].
  destruct (Ceq_dec (fst b) (RtoC 0)) as [E'|E']; [right; intros [_ H]; now apply H|left; auto].
Qed.
Lemma okL_dec p inner : forall l0 ln, {okL p l0 inner ln} + {~ okL p l0 inner ln}.
Proof.
  induction inner as [|[l t] rest IH]; intros l0 ln; cbn [okL]; [apply okl_dec|].
  destruct (okl_dec p l0 l); [|right; tauto]. destruct (IH l ln); [left; auto|right; tauto].
Defined.

Definition propL (k : CV) (t : R) : mat :=
  let phi := (k * rc t)%cv in
  prop_matrix (cexp (Some (0, -1)%R * phi)%cv) (cexp (Some (0, 1)%R * phi)%cv).
(** the interface matrices of a stack, and those of propagation *)
Definition Ts p (l0 : C * C) inner ln := map (fun ab => FL p (fst ab) (snd ab)) (consec (eps_of l0 inner ln)).
Definition Ps (inner : list (C * C * R)) := map (fun lt => propL (Some (snd (fst lt))) (snd lt)) inner.

Lemma transfer_with_parts p l0 inner ln :
  transfer_with p (map (fun l => Some (fst l)) (eps_of l0 inner ln)) (map (fun l => Some (snd l)) (eps_of l0 inner ln))
    (map snd inner)
  = match Ts p l0 inner ln with
    | [] => Raise (ValueError msg_stack)
    | T0 :: T => match inner with [] => Ok T0 | _ => Ok (chain T0 (combine T (Ps inner))) end
    end.
Proof.
  unfold transfer_with.
  match goal with |- match ?x with _ => _ end = _ => assert (E : x = Ts p l0 inner ln) end.
  { unfold Ts, consec. set (ls := eps_of l0 inner ln).
    rewrite <- (map_seq_consec (FL p) l0). rewrite map_map, map_length. apply map_ext_in.
    intros i Hi. apply in_seq in Hi. unfold trans_factor, FL.
    assert (N1 : forall j, (j < length ls)%nat -> nth j (map (fun l : C * C => Some (fst l)) ls) None = Some (fst (nth j ls l0))).
    { intros j Hj. rewrite (nth_indep _ None (Some (fst l0))) by (rewrite map_length; exact Hj).
      apply (map_nth (fun l : C * C => Some (fst l))). }
    assert (N2 : forall j, (j < length ls)%nat -> nth j (map (fun l : C * C => Some (snd l)) ls) None = Some (snd (nth j ls l0))).
    { intros j Hj. rewrite (nth_indep _ None (Some (snd l0))) by (rewrite map_length; exact Hj).
      apply (map_nth (fun l : C * C => Some (snd l))). }
    rewrite !N1, !N2 by lia. reflexivity. }
  rewrite E. destruct (Ts p l0 inner ln) as [|T0 T]; [reflexivity|].
  rewrite map_length, eps_of_length. destruct inner as [|lt inner]; [reflexivity|].
  destruct (Nat.ltb_spec 2 (length (lt :: inner) + 2)) as [_|H]; [|cbn in H; lia].
  f_equal. f_equal. f_equal. unfold Ps. generalize (lt :: inner). clear. intro inner.
  unfold eps_of. cbn [map tl]. rewrite map_app. cbn [map]. rewrite removelast_snoc.
  induction inner as [|[l t] rest IH]; [reflexivity|]. cbn [map combine fst snd]. f_equal. exact IH.
Qed.
Lemma Ts_ok p inner : forall l0 ln, okL p l0 inner ln ->
  Ts p l0 inner ln = lift (firstT (TL p) l0 inner ln) :: map (fun tp => lift (fst tp)) (stackTP (TL p) PL l0 inner ln).
Proof.
  unfold Ts. induction inner as [|[l t] rest IH]; intros l0 ln H.
  - cbn. now rewrite FL_ok.
  - destruct H as [H1 H2]. rewrite consec_cons. cbn [map fst snd]. rewrite FL_ok by exact H1.
    cbn [firstT stackTP map fst]. f_equal. rewrite (IH l ln H2). reflexivity.
Qed.
Lemma Ps_ok p inner : forall l0 ln, Ps inner = map (fun tp => lift (snd tp)) (stackTP (TL p) PL l0 inner ln).
Proof.
  unfold Ps. induction inner as [|[l t] rest IH]; intros l0 ln; [reflexivity|].
  cbn [map stackTP snd fst]. f_equal; [|apply IH]. unfold PL. rewrite <- prop_matrix_Some. reflexivity.
Qed.
Lemma chain_bad_in T : forall P M, length T = length P -> In bad T -> chain M (combine T P) = bad.
Proof.
  induction T as [|t T IH]; intros [|p P] M HL HI; try (destruct HI); try discriminate.
  - subst t. unfold chain. cbn. rewrite mmul_bad_r. apply chain_bad.
  - apply (IH P); [now injection HL|assumption].
Qed.
Lemma Ts_bad p inner : forall l0 ln, ~ okL p l0 inner ln -> In bad (Ts p l0 inner ln).
Proof.
  unfold Ts. induction inner as [|[l t] rest IH]; intros l0 ln H.
  - left. now apply FL_bad.
  - rewrite consec_cons. cbn [map fst snd]. destruct (okl_dec p l0 l) as [K|K].
    + right. apply IH. intro K'. apply H. split; assumption.
    + left. now apply FL_bad.
Qed.
Lemma Ts_length p inner : forall l0 ln, length (Ts p l0 inner ln) = S (length inner).
Proof.
  unfold Ts. induction inner as [|[l t] rest IH]; intros l0 ln; [reflexivity|].
  rewrite consec_cons. cbn [map length]. now rewrite IH.
Qed.
Lemma transfer_with_struct p l0 inner ln :
  transfer_with p (map (fun l => Some (fst l)) (eps_of l0 inner ln)) (map (fun l => Some (snd l)) (eps_of l0 inner ln))
    (map snd inner)
  = Ok (if okL_dec p inner l0 ln then lift (stackM (TL p) PL l0 inner ln) else bad).
Proof.
  rewrite transfer_with_parts. destruct (okL_dec p inner l0 ln) as [H|H].
  - rewrite Ts_ok by exact H. destruct inner as [|lt inner]; [reflexivity|].
    rewrite (Ps_ok p (lt :: inner) l0 ln). f_equal.
    rewrite combine_map_same. change (fun x => (lift (fst x), lift (snd x))) with liftp.
    rewrite chain_lift, stackM_chain. reflexivity.
  - pose proof (Ts_bad p inner l0 ln H) as HI. pose proof (Ts_length p inner l0 ln) as HL.
    destruct (Ts p l0 inner ln) as [|T0 T]; [discriminate|]. cbn in HL. injection HL as HL.
    destruct HI as [HI|HI].
    + subst T0. destruct inner; [reflexivity|]. f_equal. apply chain_bad.
    + destruct inner as [|lt inner]; [destruct T; [destruct HI|discriminate]|]. f_equal.
      apply chain_bad_in; [|exact HI]. unfold Ps. now rewrite map_length.
Qed.

Definition sl nu q (e : scomplex) : C * C := (value e, value (s_nu_z nu q e)).
Definition sli nu q (i : list (scomplex * R)) := map (fun et => (sl nu q (fst et), snd et)) i.
Definition vi (i : list (scomplex * R)) : list (C * R) := map (fun et => (value (fst et), snd et)) i.
Lemma sl_eps_of nu q e0 inner en :
  map (sl nu q) (eps_of e0 inner en) = eps_of (sl nu q e0) (sli nu q inner) (sl nu q en).
Proof. unfold eps_of, sli. cbn [map]. rewrite map_app, !map_map. reflexivity. Qed.
Lemma vi_eps_of e0 inner en : map value (eps_of e0 inner en) = eps_of (value e0) (vi inner) (value en).
Proof. unfold eps_of, vi. cbn [map]. rewrite map_app, !map_map. reflexivity. Qed.

Lemma s_transfer_struct e0 inner en nu0 qarg th nuarg nu q p :
  resolve_nu (plain_sample (mkSS (eps_of e0 inner en) (map snd inner) nu0)) nuarg = Ok nu ->
  resolve_q nu qarg th = Ok q ->
  s_transfer_matrix (mkSS (eps_of e0 inner en) (map snd inner) nu0) qarg th nuarg (pol_str p)
  = Ok (if okL_dec p (sli nu q inner) (sl nu q e0) (sl nu q en)
        then lift (stackM (TL p) PL (sl nu q e0) (sli nu q inner) (sl nu q en)) else bad).
Proof.
  intros Hn Hq. unfold s_transfer_matrix. rewrite Hn. cbn [rbind]. rewrite Hq. cbn [rbind s_eps_stack s_t_stack].
  rewrite eps_of_length. replace (Nat.eqb (length inner + 2) 0) with false by (symmetry; apply Nat.eqb_neq; lia).
  rewrite <- transfer_with_struct, <- sl_eps_of, !map_map. unfold sli. rewrite map_map. destruct p; reflexivity.
Qed.
Lemma transfer_struct e0 inner en nu0 qarg th nuarg nu q p :
  resolve_nu (qs_sample e0 inner en nu0) nuarg = Ok nu -> resolve_q nu qarg th = Ok q ->
  transfer_matrix (qs_sample e0 inner en nu0) qarg th nuarg (pol_str p)
  = Ok (if okL_dec p (withki nu q inner) (withk nu q e0) (withk nu q en)
        then lift (stackM (TL p) PL (withk nu q e0) (withki nu q inner) (withk nu q en)) else bad).
Proof.
  intros Hn Hq. rewrite <- transfer_with_struct. unfold transfer_matrix. rewrite Hn. cbn [rbind]. rewrite Hq. cbn [rbind].
  assert (E : eps_of (withk nu q e0) (withki nu q inner) (withk nu q en) = map (withk nu q) (eps_of e0 inner en)).
  { unfold eps_of, withki. cbn [map]. rewrite map_app, !map_map. reflexivity. }
  unfold n_layers, multilayer. unfold qs_sample. cbn [eps_stack t_stack].
  rewrite E, !map_map. unfold withki. rewrite map_map. cbn [fst snd withk].
  rewrite map_length, eps_of_length. replace (Nat.eqb (length inner + 2) 0) with false by (symmetry; apply Nat.eqb_neq; lia).
  unfold transfer_with. rewrite !map_length, eps_of_length.
  rewrite (map_ext (fun x => nu_z_of nu q (Some x)) (fun x => Some (kz nu q x))) by (intro; apply nu_z_of_Some).
  unfold n_layers. cbn [eps_stack]. rewrite ?map_length, ?eps_of_length.
  destruct p; reflexivity.
Qed.

Lemma below_dec e : {below_cut e} + {~ below_cut e}.
Proof.
  unfold below_cut. destruct (minus (sre e)) eqn:E1; [|right; intros (H & _); discriminate].
  destruct (Req_EM_T (val (sim e)) 0) as [E2|E2]; [|right; tauto].
  destruct (minus (sim e)) eqn:E3; [left; auto|right; intros (_ & _ & H); discriminate].
Qed.
Lemma s_nu_z_sign nu q e : proper_c e -> nu <> 0 ->
  value (s_nu_z nu q e) = kz nu q (value e) \/ value (s_nu_z nu q e) = (- kz nu q (value e))%C.
Proof.
  intros H Hn. destruct (below_dec e) as [B|B]; [right; now apply s_nu_z_below|left; now apply s_nu_z_value].
Qed.
Lemma sl_signeqt nu q inner : nu <> 0 -> Forall proper_c (map fst inner) ->
  Forall2 signeqt (withki nu q (vi inner)) (sli nu q inner).
Proof.
  intros Hn H. induction inner as [|[e t] rest IH]; cbn in H |- *; constructor.
  - split; [|reflexivity]. split; [reflexivity|]. cbn. apply s_nu_z_sign; [now apply Forall_inv in H|exact Hn].
  - apply IH. now apply Forall_inv_tail in H.
Qed.
Lemma signeqt_sym i i' : Forall2 signeqt i i' -> Forall2 signeqt i' i.
Proof.
  induction 1 as [|x y i i' [[H1 H2] H3] _ IH]; constructor; trivial. split; [|congruence]. split; [congruence|].
  destruct H2 as [->| ->]; [left; reflexivity|right; ring].
Qed.

(** the transfer matrix is the one of the plain model when the outer layers are *)
Lemma transfer_same e0 inner en nu0 qarg th nuarg pol :
  Forall proper_c (eps_of e0 inner en) -> ~ below_cut e0 -> ~ below_cut en ->
  nuarg <> Some 0 -> nu0 <> Some 0 ->
  s_transfer_matrix (mkSS (eps_of e0 inner en) (map snd inner) nu0) qarg th nuarg pol
  = transfer_matrix (plain_sample (mkSS (eps_of e0 inner en) (map snd inner) nu0)) qarg th nuarg pol.
Proof.
  intros HP B0 Bn Hn Hn0. set (s := mkSS _ _ _).
  destruct (resolve_nu (plain_sample s) nuarg) as [nu|e] eqn:En;
    [|unfold s_transfer_matrix, transfer_matrix; rewrite En; reflexivity].
  destruct (resolve_q nu qarg th) as [q|e] eqn:Eq;
    [|unfold s_transfer_matrix, transfer_matrix; rewrite En; cbn [rbind]; rewrite Eq; reflexivity].
  assert (Hnu : nu <> 0).
  { unfold resolve_nu in En. destruct nuarg as [x|]; [injection En as <-; intros ->; now apply Hn|].
    cbn [nu_vac plain_sample s_nu_vac s] in En.
    destruct nu0 as [x|]; cbn in En; [injection En as <-; intros ->; now apply Hn0|].
    match type of En with (if ?b then _ else _) = _ => destruct b end; [discriminate|injection En as <-; apply R1_neq_R0]. }
  assert (ES : plain_sample s = qs_sample (value e0) (vi inner) (value en) nu0).
  { unfold plain_sample, qs_sample, s. cbn [s_eps_stack s_t_stack s_nu_vac]. rewrite <- vi_eps_of, map_map. unfold vi.
    rewrite map_map. reflexivity. }
  destruct (string_dec pol "p") as [->|Hp].
  1:change "p"%string with (pol_str true); generalize true; intro p.
  2:destruct (string_dec pol "s") as [->|Hs].
  2:change "s"%string with (pol_str false); generalize false; intro p.
  3:{ unfold s_transfer_matrix, transfer_matrix. rewrite En. cbn [rbind]. rewrite Eq. cbn [rbind]. rewrite ES.
      unfold n_layers, qs_sample, s. cbn [s_eps_stack eps_stack]. rewrite map_length, !eps_of_length.
      apply String.eqb_neq in Hp, Hs. rewrite Hp, Hs. cbn [rbind].
      replace (Nat.eqb (length inner + 2) 0) with false by (symmetry; apply Nat.eqb_neq; lia).
      replace (Nat.eqb (length (vi inner) + 2) 0) with false by (symmetry; apply Nat.eqb_neq; lia). reflexivity. }
  all:unfold s; rewrite (s_transfer_struct e0 inner en nu0 qarg th nuarg nu q p) by assumption;
    fold s; rewrite ES in En |- *; rewrite (transfer_struct _ _ _ nu0 qarg th nuarg nu q p) by assumption.
  all:unfold eps_of in HP; apply Forall_cons_iff in HP; destruct HP as [P0 HP]; apply Forall_app in HP; destruct HP as [Pi Pn];
    apply Forall_inv in Pn.
  all:assert (E0 : sl nu q e0 = withk nu q (value e0)) by (unfold sl, withk; now rewrite s_nu_z_value).
  all:assert (E1 : sl nu q en = withk nu q (value en)) by (unfold sl, withk; now rewrite s_nu_z_value).
  all:rewrite E0, E1; pose proof (sl_signeqt nu q inner Hnu Pi) as HF.
  all:assert (S0 : forall l : C * C, signeq l l) by (intro l; split; auto).
  all:destruct (okL_dec p (sli nu q inner) (withk nu q (value e0)) (withk nu q (value en))) as [H|H],
        (okL_dec p (withki nu q (vi inner)) (withk nu q (value e0)) (withk nu q (value en))) as [H'|H'];
    [|exfalso; apply H'; exact (okL_flip_inner p _ _ HF _ _ _ (S0 _) H)
     |exfalso; apply H; exact (okL_flip_inner p _ _ (signeqt_sym _ _ HF) _ _ _ (S0 _) H')|reflexivity].
  all:f_equal; f_equal; apply (stackM_branch p _ _ HF _ _ H').
Qed.

(** C82. Permittivities that are not below the branch cut of the square root
    are treated by the far-field functions as the real-number model does; inner
    layers may be on either side of the cut. *)
Lemma C82_far_field_proof :
  forall (s : ssample) (q th nu : option R) (pol : string) (e0 en : scomplex) (mid : list scomplex),
  s_eps_stack s = e0 :: mid ++ [en] -> length mid = length (s_t_stack s) ->
  Forall proper_c (e0 :: mid ++ [en]) -> ~ below_cut e0 -> ~ below_cut en ->
  nu <> Some 0 -> s_nu_vac s <> Some 0 ->
  s_refl_coef s q th nu pol = refl_coef (plain_sample s) q th nu pol /\
  s_trans_coef s q th nu pol = trans_coef (plain_sample s) q th nu pol.
Proof.
  intros [es ts nu0] q th nu pol e0 en mid Es Hl HP B0 Bn Hn Hn0. cbn [s_eps_stack s_t_stack s_nu_vac] in *. subst es.
  destruct (stack_decomp (e0 :: mid ++ [en]) ts) as (a & inner & b & E & ->).
  { cbn. rewrite app_length. cbn. lia. }
  rewrite E in *. injection E as E1 E2. apply app_inj_tail in E2. destruct E2 as [E2 E3]. subst a b.
  pose proof (transfer_same e0 inner en nu0 q th nu pol HP B0 Bn Hn Hn0) as T.
  unfold s_refl_coef, s_trans_coef, refl_coef, trans_coef. rewrite T. split; reflexivity.
Qed.

Lemma branch_sl nu q e k : proper_c e -> nu <> 0 -> is_kz nu q (value e) k -> branch e k -> sl nu q e = (value e, k).
Proof.
  intros P Hn K [[B H]|[B H]]; unfold sl; f_equal.
  - rewrite s_nu_z_value by assumption. symmetry. now apply is_kz_principal.
  - rewrite s_nu_z_below by assumption. rewrite <- (is_kz_principal nu q (value e) (- k)%C).
    + ring.
    + unfold is_kz in *. rewrite <- K. ring.
    + exact H.
Qed.

(** C82. In general the far-field reflection coefficient is that of the
    recursion over Fresnel coefficients in which a half space whose
    permittivity is below the cut has the opposite wavevector: the wave that grows
    (or comes back) instead of the one that decays (or leaves). *)
Lemma C82_recursion_proof :
  forall (p : bool) (s : ssample) (e0 en : scomplex) (mid : list scomplex) (k0 kn : C) (ks : list C) (nu q : R) (r : C),
  s_eps_stack s = e0 :: mid ++ [en] -> nu <> 0 ->
  Forall proper_c (e0 :: mid ++ [en]) ->
  is_kz nu q (value e0) k0 -> is_kz nu q (value en) kn ->
  Forall2 (fun e k => is_kz nu q (value e) k) mid ks ->
  branch e0 k0 -> branch en kn ->
  parratt (if p then fresnel_p else fresnel_s) ff_round
    ((value e0, k0) :: combine (map value mid) ks ++ [(value en, kn)]) (s_t_stack s) r ->
  s_refl_coef s (Some q) None (Some nu) (Spec.pol p) = Ok (Some r).
Proof.
  intros p [es ts nu0] e0 en mid k0 kn ks nu q r Es Hn HP K0 Kn Ks B0 Bn H. cbn [s_eps_stack s_t_stack] in *. subst es.
  pose proof (parratt_length _ _ _ _ _ H) as Hw.
  destruct (stack_decomp _ _ Hw) as (a & innerL & b & E & ->).
  rewrite E in H. injection E as E1 E2. apply app_inj_tail in E2. destruct E2 as [E2 E3]. subst a b.
  fold (fresnel p) in H.
  destruct (stack_decomp (e0 :: mid ++ [en]) (map snd innerL)) as (a & inner & b & E & Et).
  { cbn. rewrite !map_length, app_length. apply (f_equal (@length _)) in E2.
    rewrite combine_length, !map_length in E2. assert (length mid = length ks) by (clear -Ks; induction Ks; cbn; congruence). cbn. lia. }
  rewrite E in *. injection E as E1 E4. apply app_inj_tail in E4. destruct E4 as [E4 E5]. subst a b.
  rewrite Et. unfold eps_of in HP. apply Forall_cons_iff in HP; destruct HP as [P0 HP]; apply Forall_app in HP; destruct HP as [Pi Pn];
    apply Forall_inv in Pn.
  assert (HF : Forall2 signeqt (sli nu q inner) innerL).
  { subst mid. clear - Et E2 Ks Pi Hn. revert innerL ks Et E2 Ks. induction inner as [|[e t] rest IH]; intros [|[[a k] t'] innerL] ks Et E2 Ks;
      try discriminate; [constructor|]. cbn in Pi. inversion Ks as [|? k1 ? ks' K1 Ks']; subst. cbn in Et, E2.
    injection Et as Et1 Et2. injection E2 as Ea Ek E2. subst. constructor.
    - split; [|reflexivity]. split; [reflexivity|]. cbn.
      apply Forall_inv in Pi. destruct (is_kz_sign _ _ _ _ K1) as [->| ->], (s_nu_z_sign nu q e Pi Hn) as [->| ->];
        (left; ring) || (right; ring).
    - apply (IH (Forall_inv_tail Pi) innerL ks'); assumption. }
  assert (Hok' : okL p (value e0, k0) innerL (value en, kn)) by (eapply parratt_okL; exact H).
  assert (Hok : okL p (value e0, k0) (sli nu q inner) (value en, kn)).
  { eapply okL_flip_inner; [exact HF| |exact Hok']. split; auto. }
  destruct (parratt_sound (TL p) PL _ _ (ff_T_ok p) (fun _ => True) ff_P_ok innerL (value e0, k0) (value en, kn) r) as [H0 H1].
  { clear. induction (map snd innerL); constructor; auto. }
  { exact H. }
  destruct (stackM_branch p _ _ HF _ _ Hok) as [EM _]. rewrite EM in H0, H1.
  unfold s_refl_coef. rewrite pol_pol_str, (s_transfer_struct e0 inner en nu0 (Some q) None (Some nu) nu q p) by reflexivity.
  rewrite (branch_sl nu q e0 k0), (branch_sl nu q en kn) by assumption.
  destruct (okL_dec p (sli nu q inner) (value e0, k0) (value en, kn)) as [_|N]; [|contradiction].
  cbn [rbind]. f_equal. apply div_Some_r; assumption.
Qed.

(** ** Where the signs come from *)
Lemma rw_proper s x : proper_c (real_with s x).
Proof. split; [apply signed_proper|]. split; cbn; intros; exfalso; lra. Qed.
Lemma minus_plus x : minus (plus x) = if Rlt_dec x 0 then true else false.
Proof. cbn. destruct (Rlt_dec x 0); [reflexivity|]. destruct (Rlt_dec 0 x); reflexivity. Qed.
Lemma rw_below s x : below_cut (real_with s x) <-> x < 0 /\ s = true.
Proof.
  unfold below_cut, real_with. cbn [sre sim val minus]. rewrite minus_plus.
  destruct (Rlt_dec x 0); split; intros H; try tauto; destruct H as (H & ?); try discriminate; tauto.
Qed.
Lemma rw_value s x : value (real_with s x) = RtoC x.
Proof. reflexivity. Qed.
Lemma of_real_rw x : of_real x = real_with false x.
Proof. unfold of_real, real_with. now rewrite plus_0. Qed.
Lemma signed_nz x s : x <> 0 -> signed x s = plus x.
Proof. intro H. unfold plus, signed. destruct (Rlt_dec x 0), (Rlt_dec 0 x); trivial. exfalso; lra. Qed.
Lemma rw_add s s' x y : x <> 0 \/ y <> 0 -> z_add (real_with s x) (real_with s' y) = real_with (s && s') (x + y).
Proof.
  intro H. unfold z_add, real_with. cbn [sre sim]. rewrite s_add_0. f_equal.
  change (plus (x + y)) with (signed (x + y) false). unfold s_add. change (val (plus x)) with x. change (val (plus y)) with y. f_equal.
  replace (is_zero (plus x) && is_zero (plus y)) with false; [reflexivity|].
  unfold is_zero. change (val (plus x)) with x. change (val (plus y)) with y.
  destruct (Req_EM_T x 0), (Req_EM_T y 0); trivial. tauto.
Qed.
Lemma rw_sub s s' x y : x <> 0 \/ y <> 0 -> z_sub (real_with s x) (real_with s' y) = real_with (s && negb s') (x - y).
Proof.
  intro H. unfold z_sub, real_with. cbn [sre sim]. rewrite s_sub_0. f_equal.
  change (plus (x - y)) with (signed (x - y) false). unfold s_sub. change (val (plus x)) with x. change (val (plus y)) with y. f_equal.
  replace (is_zero (plus x) && is_zero (plus y)) with false; [reflexivity|].
  unfold is_zero. change (val (plus x)) with x. change (val (plus y)) with y.
  destruct (Req_EM_T x 0), (Req_EM_T y 0); trivial. tauto.
Qed.
Definition neg (x : R) : bool := if Rlt_dec x 0 then true else false.
Lemma rw_mul s s' x y : x <> 0 -> y <> 0 ->
  z_mul (real_with s x) (real_with s' y) = real_with (xorb (neg x) s' && xorb s (neg y)) (x * y).
Proof.
  intros Hx Hy. unfold z_mul, real_with. cbn [sre sim].
  rewrite !s_mul_0_r, !s_mul_0_l, s_add_0, !minus_plus. fold (neg x) (neg y). f_equal.
  unfold s_sub, s_mul. cbn [val]. change (val (plus x)) with x. change (val (plus y)) with y.
  rewrite Rminus_0_r. cbn [val signed]. rewrite signed_nz; [reflexivity|]. now apply Rmult_integral_contrapositive.
Qed.
Lemma neg_div x y : x <> 0 -> y <> 0 -> neg (x / y) = xorb (neg x) (neg y).
Proof.
  intros Hx Hy. unfold neg. assert (Hi : y * / y = 1) by now apply Rinv_r.
  destruct (Rlt_dec (x / y) 0), (Rlt_dec x 0), (Rlt_dec y 0); trivial; exfalso; unfold Rdiv in *.
  - assert (/ y < 0) by now apply Rinv_lt_0_compat. nra.
  - assert (0 < / y) by (apply Rinv_0_lt_compat; lra). nra.
  - assert (0 < / y) by (apply Rinv_0_lt_compat; lra). nra.
  - assert (/ y < 0) by now apply Rinv_lt_0_compat. assert (0 < x) by lra. nra.
Qed.
(** the quotient of two real numbers whose numerator has imaginary part +0, and
    whose denominator too *)
Lemma rw_div_pp x y : y <> 0 -> (x = 0 -> 0 < y) ->
  z_div (real_with false x) (real_with false y) = Some (real_with (neg y) (x / y)).
Proof.
  intros Hy Hx0. unfold z_div, real_with. cbn [sre sim val].
  change (val (plus y)) with y. change (val (plus x)) with x.
  rewrite Rabs_R0. destruct (Rle_dec 0 (Rabs y)) as [_|N]; [|exfalso; apply N, Rabs_pos].
  destruct (Req_EM_T y 0) as [E|_]; [contradiction|]. f_equal.
  assert (R0 : s_div (mkS 0 false) (plus y) = mkS 0 (neg y)).
  { unfold s_div. cbn [val minus]. rewrite minus_plus. fold (neg y). rewrite xorb_false_l.
    unfold Rdiv. rewrite Rmult_0_l. apply signed_zero. }
  rewrite R0, s_mul_0_r. cbn [minus]. rewrite xorb_false_l.
  assert (A : forall u t, (u = 0 -> t = false) -> s_add (plus u) (mkS 0 t) = plus u).
  { intros u t Hu. unfold s_add. change (val (plus u)) with u. cbn [val]. rewrite Rplus_0_r.
    unfold is_zero. change (val (plus u)) with u. cbn [val minus].
    destruct (Req_EM_T u 0) as [E|E]; [|now apply signed_nz]. rewrite (Hu E), !andb_false_r. reflexivity. }
  rewrite (A y) by (intro; contradiction).
  assert (S1 : s_div (plus 1) (plus y) = plus (/ y)).
  { unfold s_div. change (val (plus 1)) with 1. change (val (plus y)) with y. unfold Rdiv. rewrite Rmult_1_l.
    apply signed_nz. now apply Rinv_neq_0_compat. }
  rewrite S1.
  assert (Hn : neg (/ y) = neg y).
  { replace (/ y) with (1 / y) by (unfold Rdiv; ring). rewrite neg_div by lra. unfold neg at 1. destruct (Rlt_dec 1 0); [lra|]. apply xorb_false_l. }
  f_equal.
  - rewrite A.
    2:{ intro E. unfold neg. destruct (Rlt_dec y 0); trivial. specialize (Hx0 E). lra. }
    unfold s_mul. change (val (plus x)) with x. change (val (plus (/ y))) with (/ y).
    change (plus (x / y)) with (signed (x / y) false). unfold Rdiv.
    destruct (Req_EM_T x 0) as [E|E].
    + subst x. rewrite !minus_plus. specialize (Hx0 eq_refl).
      destruct (Rlt_dec 0 0); [lra|]. destruct (Rlt_dec (/ y) 0) as [L|_]; [|reflexivity].
      assert (0 < / y) by now apply Rinv_0_lt_compat. lra.
    + rewrite !signed_nz; trivial; apply Rmult_integral_contrapositive; split; trivial; now apply Rinv_neq_0_compat.
  - rewrite s_mul_0_r. cbn [minus]. rewrite s_sub_0, s_mul_0_l. rewrite !minus_plus. change (if Rlt_dec (/ y) 0 then true else false) with (neg (/ y)). rewrite Hn.
    cbn [andb]. now rewrite xorb_false_l.
Qed.
Lemma rw_div_ex s s' x y : x <> 0 -> y <> 0 ->
  exists t, z_div (real_with s x) (real_with s' y) = Some (real_with t (x / y)).
Proof.
  intros Hx Hy. unfold z_div, real_with. cbn [sre sim val].
  change (val (plus y)) with y. change (val (plus x)) with x.
  rewrite Rabs_R0. destruct (Rle_dec 0 (Rabs y)) as [_|N]; [|exfalso; apply N, Rabs_pos].
  destruct (Req_EM_T y 0) as [E|_]; [contradiction|].
  assert (R0 : exists t, s_div (mkS 0 s') (plus y) = mkS 0 t).
  { eexists. unfold s_div. cbn [val]. unfold Rdiv. rewrite Rmult_0_l. apply signed_zero. }
  destruct R0 as [t R0]. rewrite R0, !s_mul_0_r.
  assert (A : forall u t, u <> 0 -> s_add (plus u) (mkS 0 t) = plus u).
  { intros u t' Hu. unfold s_add. change (val (plus u)) with u. cbn [val]. rewrite Rplus_0_r. now apply signed_nz. }
  rewrite !A by assumption.
  assert (S1 : s_div (plus 1) (plus y) = plus (/ y)).
  { unfold s_div. change (val (plus 1)) with 1. change (val (plus y)) with y. unfold Rdiv. rewrite Rmult_1_l.
    apply signed_nz. now apply Rinv_neq_0_compat. }
  rewrite S1, s_sub_0, s_mul_0_l. eexists. f_equal. f_equal.
  unfold s_mul. change (val (plus x)) with x. change (val (plus (/ y))) with (/ y). apply signed_nz.
  apply Rmult_integral_contrapositive; split; trivial; now apply Rinv_neq_0_compat.
Qed.

(** the permittivity of a real reflection coefficient: its imaginary part is -0
    exactly when beta > 1 *)
Lemma s_permitivitty_real s b : b <> 1 ->
  s_permitivitty (real_with s b) (of_real 1) = Some (real_with (if Rlt_dec 1 b then true else false) ((1 + b) / (1 - b))).
Proof.
  intros Hb. unfold s_permitivitty. rewrite of_real_rw, rw_add, rw_sub by (left; lra). cbn [andb].
  assert (E : z_mul (real_with false 1) (real_with false (1 + b)) = real_with false (1 + b)).
  { destruct (Req_EM_T (1 + b) 0) as [E|E].
    - rewrite E. unfold z_mul, real_with. cbn [sre sim]. rewrite plus_0, !s_mul_0_r, s_sub_0, s_add_0.
      unfold s_mul. cbn [val minus]. rewrite minus_plus. destruct (Rlt_dec 1 0); [lra|]. reflexivity.
    - rewrite rw_mul by lra. rewrite Rmult_1_l. f_equal. unfold neg at 1. destruct (Rlt_dec 1 0); [lra|]. reflexivity. }
  rewrite E, rw_div_pp by lra. f_equal. f_equal. unfold neg. destruct (Rlt_dec (1 - b) 0), (Rlt_dec 1 b); trivial; exfalso; lra.
Qed.

Definition gb (b : R) : bool := if Rlt_dec 1 b then true else false.
Definition pr (b : R) : R := (1 + b) / (1 - b).
Definition perm1 (b : bool * R) : option scomplex := s_permitivitty (given b) (of_real 1).
Lemma perm1_eq b : snd b <> 1 -> perm1 b = Some (real_with (gb (snd b)) (pr (snd b))).
Proof. apply s_permitivitty_real. Qed.
Lemma pr_pos b : Rabs b < 1 -> 0 < pr b /\ gb b = false /\ b <> 1.
Proof.
  intro H. apply Rabs_def2 in H. split; [|split; [|lra]].
  - unfold pr. apply Rdiv_lt_0_compat; lra.
  - unfold gb. destruct (Rlt_dec 1 b); [lra|reflexivity].
Qed.
Lemma pr_neg b : 1 < Rabs b -> pr b < 0 /\ b <> 1.
Proof.
  intro H. unfold pr. unfold Rabs in H. destruct (Rcase_abs b).
  - split; [|lra]. unfold Rdiv. assert (0 < / (1 - b)) by (apply Rinv_0_lt_compat; lra). nra.
  - split; [|lra]. unfold Rdiv. assert (/ (1 - b) < 0) by (apply Rinv_lt_0_compat; lra). nra.
Qed.
Lemma neg_pos x : 0 < x -> neg x = false. Proof. intro. unfold neg. destruct (Rlt_dec x 0); [lra|reflexivity]. Qed.
Lemma neg_neg x : x < 0 -> neg x = true. Proof. intro. unfold neg. destruct (Rlt_dec x 0); [reflexivity|lra]. Qed.

Lemma weak_run bs : forall a, 0 < a -> Forall (fun b => Rabs (snd b) < 1) bs ->
  exists l, s_cumprod_from (Some (real_with false a)) (map perm1 bs) = map (fun x => Some (real_with false x)) l
            /\ length l = length bs /\ Forall (fun x => 0 < x) l.
Proof.
  induction bs as [|b bs IH]; intros a Ha H; [exists []; repeat split; constructor|].
  apply Forall_cons_iff in H. destruct H as [Hb H]. destruct (pr_pos _ Hb) as (Hp & Hg & Hn).
  cbn [map s_cumprod_from]. rewrite perm1_eq by exact Hn. cbn [olift2]. rewrite Hg, rw_mul by lra.
  rewrite (neg_pos a), (neg_pos (pr (snd b))) by assumption. cbn [xorb andb].
  destruct (IH (a * pr (snd b))) as (l & El & Hl & Fl); [nra|exact H|]. exists ((a * pr (snd b)) :: l).
  rewrite El. cbn. repeat split; [lia|]. constructor; [nra|exact Fl].
Qed.
Lemma neg_run bs : forall t a, a < 0 -> Forall (fun b => Rabs (snd b) < 1) bs ->
  exists l, s_cumprod_from (Some (real_with t a)) (map perm1 bs) = map (fun x => Some (real_with t x)) l
            /\ length l = length bs /\ Forall (fun x => x < 0) l.
Proof.
  induction bs as [|b bs IH]; intros t a Ha H; [exists []; repeat split; constructor|].
  apply Forall_cons_iff in H. destruct H as [Hb H]. destruct (pr_pos _ Hb) as (Hp & Hg & Hn).
  cbn [map s_cumprod_from]. rewrite perm1_eq by exact Hn. cbn [olift2]. rewrite Hg, rw_mul by lra.
  rewrite (neg_neg a), (neg_pos (pr (snd b))) by assumption. cbn [xorb andb]. rewrite xorb_false_r.
  destruct (IH t (a * pr (snd b))) as (l & El & Hl & Fl); [nra|exact H|]. exists ((a * pr (snd b)) :: l).
  rewrite El. cbn. repeat split; [lia|]. constructor; [nra|exact Fl].
Qed.
Lemma strong_run bs : forall a b bs', 0 < a -> Forall (fun b => Rabs (snd b) < 1) bs -> 1 < Rabs (snd b) ->
  Forall (fun b => Rabs (snd b) < 1) bs' ->
  exists l l', s_cumprod_from (Some (real_with false a)) (map perm1 (bs ++ b :: bs')) =
    map (fun x => Some (real_with false x)) l ++ map (fun x => Some (real_with (gb (snd b)) x)) l'
    /\ length l = length bs /\ length l' = S (length bs') /\ Forall (fun x => 0 < x) l /\ Forall (fun x => x < 0) l'.
Proof.
  induction bs as [|c bs IH]; intros a b bs' Ha H Hb H'.
  - destruct (pr_neg _ Hb) as (Hp & Hn). cbn [app map s_cumprod_from]. rewrite perm1_eq by exact Hn. cbn [olift2].
    rewrite rw_mul by lra. rewrite (neg_pos a), (neg_neg (pr (snd b))) by assumption. replace (xorb false (gb (snd b)) && xorb false true) with (gb (snd b)) by (destruct (gb (snd b)); reflexivity).
    destruct (neg_run bs' (gb (snd b)) (a * pr (snd b))) as (l & El & Hl & Fl); [nra|exact H'|].
    exists [], ((a * pr (snd b)) :: l). rewrite El. cbn. repeat split; [lia|constructor|]. constructor; [nra|exact Fl].
  - apply Forall_cons_iff in H. destruct H as [Hc H]. destruct (pr_pos _ Hc) as (Hp & Hg & Hn).
    cbn [app map s_cumprod_from]. rewrite perm1_eq by exact Hn. cbn [olift2]. rewrite Hg, rw_mul by lra.
    rewrite (neg_pos a), (neg_pos (pr (snd c))) by assumption. cbn [xorb andb].
    destruct (IH (a * pr (snd c)) b bs') as (l & l' & El & Hl & Hl' & Fl & Fl'); [nra|assumption..|].
    exists ((a * pr (snd c)) :: l), l'. rewrite El. cbn. repeat split; [lia|lia| |exact Fl']. constructor; [nra|exact Fl].
Qed.
Lemma cumprod_start bs : Forall (fun b => Rabs (snd b) <> 1) bs ->
  s_cumprod (map perm1 bs) = s_cumprod_from (Some (real_with false 1)) (map perm1 bs).
Proof.
  destruct bs as [|b bs]; intro H; [reflexivity|]. apply Forall_inv in H.
  cbn [map s_cumprod s_cumprod_from]. assert (Hb : snd b <> 1) by (intro E; rewrite E, Rabs_R1 in H; now apply H).
  rewrite perm1_eq by exact Hb. cbn [olift2].
  assert (E : z_mul (real_with false 1) (real_with (gb (snd b)) (pr (snd b))) = real_with (gb (snd b)) (pr (snd b))).
  { destruct (Rlt_dec (Rabs (snd b)) 1) as [L|L].
    - destruct (pr_pos _ L) as (Hp & Hg & _). rewrite rw_mul by lra. rewrite Hg, (neg_pos 1), (neg_pos (pr (snd b))), Rmult_1_l by lra. reflexivity.
    - assert (L' : 1 < Rabs (snd b)) by lra. destruct (pr_neg _ L') as (Hp & _). rewrite rw_mul by lra.
      rewrite (neg_pos 1), (neg_neg (pr (snd b))), Rmult_1_l by lra. destruct (gb (snd b)); reflexivity. }
  rewrite E. reflexivity.
Qed.
Lemma env_pos e0 l : 0 < e0 -> Forall (fun x => 0 < x) l ->
  map (fun e => olift2 z_mul e (Some (real_with false e0))) (map (fun x => Some (real_with false x)) l)
  = map Some (map (fun x => real_with false (x * e0)) l).
Proof.
  intros He H. rewrite !map_map. apply map_ext_in. intros x Hx. rewrite Forall_forall in H. specialize (H x Hx).
  cbn [olift2]. rewrite rw_mul by lra. rewrite !neg_pos by lra. reflexivity.
Qed.
Lemma env_neg t e0 l : 0 < e0 -> Forall (fun x => x < 0) l ->
  map (fun e => olift2 z_mul e (Some (real_with false e0))) (map (fun x => Some (real_with t x)) l)
  = map Some (map (fun x => real_with t (x * e0)) l).
Proof.
  intros He H. rewrite !map_map. apply map_ext_in. intros x Hx. rewrite Forall_forall in H. specialize (H x Hx).
  cbn [olift2]. rewrite rw_mul by lra. rewrite (neg_pos e0), neg_neg by lra. cbn [xorb andb]. rewrite xorb_false_r. reflexivity.
Qed.

(** C82. Samples made from real reflection coefficients.  With one interface of
    |beta| > 1 and |beta| < 1 at all others, all permittivities under that interface
    are negative; they are below the cut if its beta > 1 and above it if beta < -1.
    With |beta| < 1 everywhere none is below the cut. *)
Lemma C82_from_reflection_coefficients_proof :
  forall (e0 : R) (bs : list (bool * R)), 0 < e0 -> Forall (fun b => Rabs (snd b) < 1) bs ->
  (exists l, s_eps_from_beta (real_with false e0) (map given bs) = map Some l /\
     length l = S (length bs) /\ Forall (fun e => ~ below_cut e) l) /\
  (forall (b : bool * R) (bs' : list (bool * R)), 1 < Rabs (snd b) -> Forall (fun b => Rabs (snd b) < 1) bs' ->
   exists l l', s_eps_from_beta (real_with false e0) (map given (bs ++ b :: bs')) = map Some (l ++ l') /\
     length l = S (length bs) /\ length l' = S (length bs') /\
     Forall (fun e => ~ below_cut e) l /\ Forall (fun e => Re (value e) < 0) l' /\
     (1 < snd b -> Forall below_cut l') /\ (snd b < -1 -> Forall (fun e => ~ below_cut e) l')).
Proof.
  intros e0 bs He H.
  assert (W : forall bs, Forall (fun b : bool * R => Rabs (snd b) < 1) bs -> Forall (fun b => Rabs (snd b) <> 1) bs).
  { intros l. apply Forall_impl. intros ?; lra. }
  assert (E0 : olift2 z_mul (Some (of_real 1)) (Some (real_with false e0)) = Some (real_with false (1 * e0))).
  { rewrite of_real_rw. cbn [olift2]. rewrite rw_mul by lra. rewrite !neg_pos by lra. reflexivity. }
  assert (EP : forall bs, map (fun b => s_permitivitty b (of_real 1)) (map given bs) = map perm1 bs)
    by (intro; apply map_map).
  assert (NB : forall (t : bool) l, (forall x, In x l -> x < 0 -> t = false) -> Forall (fun e => ~ below_cut e) (map (fun x => real_with t (x * e0)) l)).
  { intros t l Hl. rewrite Forall_map, Forall_forall. intros x Hx B. apply rw_below in B. destruct B as [B ->].
    specialize (Hl x Hx). assert (x < 0) by nra. discriminate (Hl H0). }
  split.
  - destruct (weak_run bs 1) as (l & El & Hl & Fl); [lra|exact H|].
    exists (map (fun x => real_with false (x * e0)) (1 :: l)). split; [|split].
    + unfold s_eps_from_beta. rewrite EP, cumprod_start, El by now apply W. cbn [map]. rewrite E0. f_equal. now apply env_pos.
    + rewrite map_length. cbn. lia.
    + apply NB. reflexivity.
  - intros b bs' Hb H'. destruct (strong_run bs 1 b bs') as (l & l' & El & Hl & Hl' & Fl & Fl'); [lra|assumption..|].
    exists (map (fun x => real_with false (x * e0)) (1 :: l)), (map (fun x => real_with (gb (snd b)) (x * e0)) l').
    split; [|split; [|split; [|split; [|split; [|split]]]]].
    + unfold s_eps_from_beta. rewrite EP, cumprod_start, El.
      * cbn [map]. rewrite E0. cbn [app map]. f_equal. rewrite !map_app. f_equal; [now apply env_pos|now apply env_neg].
      * apply Forall_app. split; [now apply W|]. constructor; [lra|now apply W].
    + rewrite map_length. cbn. lia.
    + now rewrite map_length.
    + apply NB. reflexivity.
    + rewrite Forall_map. eapply Forall_impl; [|exact Fl']. intros x Hx. cbn. nra.
    + intros Hg. rewrite Forall_map. eapply Forall_impl; [|exact Fl']. intros x Hx. apply rw_below.
      split; [nra|]. unfold gb. destruct (Rlt_dec 1 (snd b)); [reflexivity|lra].
    + intros Hg. apply NB. intros x _ _. unfold gb. destruct (Rlt_dec 1 (snd b)); [lra|reflexivity].
Qed.

(** C82. The reflection coefficients a sample reports do not give the sample back:
    a lossless substrate of permittivity below minus that of the environment comes
    back on the other side of the cut. *)
Lemma C82_round_trip_proof :
  forall (e0 e1 : R) (s : bool), 0 < e0 -> e1 < - e0 ->
  exists b, s_beta_stack [real_with false e0; real_with s e1] = [Some b] /\
    s_eps_from_beta (real_with false e0) [b] = [Some (real_with false e0); Some (real_with true e1)].
Proof.
  intros e0 e1 s H0 H1. unfold s_beta_stack. cbn [removelast tl combine map fst snd].
  unfold s_refl_coef_qs_single. rewrite rw_sub, rw_add by lra.
  destruct (rw_div_ex (s && negb false) (s && false) (e1 - e0) (e1 + e0)) as [t Et]; try lra.
  rewrite Et. exists (real_with t ((e1 - e0) / (e1 + e0))). split; [reflexivity|].
  assert (Hb : 1 < (e1 - e0) / (e1 + e0)).
  { replace ((e1 - e0) / (e1 + e0)) with (1 + (- (2 * e0)) * / (e1 + e0)) by (field; lra).
    assert (/ (e1 + e0) < 0) by (apply Rinv_lt_0_compat; lra). nra. }
  unfold s_eps_from_beta. cbn [map s_cumprod s_cumprod_from].
  change (real_with t ((e1 - e0) / (e1 + e0))) with (given (t, (e1 - e0) / (e1 + e0))).
  change (s_permitivitty (given ?x) (of_real 1)) with (perm1 x).
  rewrite perm1_eq by (cbn; lra). cbn [snd olift2]. rewrite of_real_rw.
  assert (EP : pr ((e1 - e0) / (e1 + e0)) = e1 / e0) by (unfold pr; field; repeat split; try lra; intro; lra).
  assert (Hi : 0 < / e0) by now apply Rinv_0_lt_compat.
  assert (Hn : e1 / e0 < 0) by (unfold Rdiv; nra).
  rewrite EP, !rw_mul by lra. rewrite (neg_pos 1), (neg_pos e0), (neg_neg (e1 / e0)) by lra. cbn [xorb andb].
  rewrite Rmult_1_l. unfold gb. destruct (Rlt_dec 1 ((e1 - e0) / (e1 + e0))); [|lra]. cbn [xorb].
  replace (e1 / e0 * e0) with e1 by (field; lra). reflexivity.
Qed.

(** ** A lossless metal as a half space *)
Lemma s_nu_z_real nu q t x : value (s_nu_z nu q (real_with t x)) =
  if (neg x && t)%bool then (- kz nu q (RtoC x))%C else kz nu q (RtoC x).
Proof.
  destruct (neg x && t)%bool eqn:E.
  - apply andb_true_iff in E. destruct E as [E1 E2]. apply s_nu_z_below; [apply rw_proper|]. apply rw_below. split; [|exact E2].
    unfold neg in E1. destruct (Rlt_dec x 0); [assumption|discriminate].
  - unfold s_nu_z. fold (kz2 nu q (real_with t x)). rewrite value_sqrt by apply kz2_proper.
    rewrite kz2_zero by reflexivity. unfold real_with at 1 2. cbn [sre sim minus]. rewrite minus_plus. fold (neg x).
    change (minus (mkS 0 t)) with t. rewrite E. reflexivity.
Qed.
Definition half (t : bool) (e0 e1 : R) nu0 : ssample := mkSS [real_with false e0; real_with t e1] [] nu0.
Lemma half_refl p t e0 e1 nu0 nu q : 0 < e0 -> e1 < 0 -> kz nu q (RtoC e0) <> RtoC 0 ->
  let f := lfactor p (RtoC e0, kz nu q (RtoC e0)) (RtoC e1, kz nu q (RtoC e1)) in
  s_refl_coef (half t e0 e1 nu0) (Some q) None (Some nu) (Spec.pol p) =
  Ok (if t then (Some (1 + f)%C / Some (1 - f)%C)%cv else (Some (1 - f)%C / Some (1 + f)%C)%cv).
Proof.
  intros H0 H1 Hk f. unfold s_refl_coef, half.
  assert (E := s_transfer_struct (real_with false e0) [] (real_with t e1) nu0 (Some q) None (Some nu) nu q p eq_refl eq_refl).
  cbn [map] in E. unfold eps_of in E. cbn [map app] in E. rewrite pol_pol_str, E. clear E. cbn [rbind sli map].
  unfold sl. rewrite !s_nu_z_real, !rw_value, (neg_pos e0), (neg_neg e1) by assumption. cbn [andb].
  assert (K1 : forall k : C, okl p (RtoC e0, kz nu q (RtoC e0)) (RtoC e1, k)).
  { intro k. split; [exact Hk|]. intros _ E. apply RtoC_inj in E. lra. }
  assert (Q : forall g : C, (Some (c10 (pT g)) / Some (c00 (pT g)))%cv = (Some (1 - g)%C / Some (1 + g)%C)%cv).
  { intro g. unfold pT; cbn [c10 c00]. unfold cdiv. cbn.
    destruct (Ceq_dec (1 + g)%C (RtoC 0)) as [E|E].
    - rewrite E. destruct (Ceq_dec (RtoC 0 / 2)%C (RtoC 0)) as [_|N]; [reflexivity|]. destruct N. field. apply C2_neq_0.
    - destruct (Ceq_dec ((1 + g) / 2)%C (RtoC 0)) as [E'|_].
      + destruct E. replace (1 + g)%C with ((1 + g) / 2 * 2)%C by (field; apply C2_neq_0). rewrite E'. ring.
      + f_equal. field. split; [exact E|apply C2_neq_0]. }
  destruct t.
  - destruct (okL_dec p [] _ _) as [_|N]; [|destruct N; apply K1].
    cbn [stackM lift m10 m00]. unfold TL. rewrite Q.
    replace (lfactor p (RtoC e0, kz nu q (RtoC e0)) (RtoC e1, (- kz nu q (RtoC e1))%C)) with (- f)%C.
    + replace (1 - - f)%C with (1 + f)%C by ring. replace (1 + - f)%C with (1 - f)%C by ring. reflexivity.
    + unfold f, lfactor. cbn [fst snd]. destruct p; field; repeat split; trivial; intro E; apply RtoC_inj in E; lra.
  - destruct (okL_dec p [] _ _) as [_|N]; [|destruct N; apply K1].
    cbn [stackM lift m10 m00]. unfold TL. rewrite Q. reflexivity.
Qed.

Lemma kz_real_pos nu q x : 0 <= x * nu ^ 2 - q ^ 2 -> kz nu q (RtoC x) = RtoC (sqrt (x * nu ^ 2 - q ^ 2)).
Proof.
  intro H. unfold kz. rewrite <- RtoC_mult, <- RtoC_minus. set (A := x * nu ^ 2 - q ^ 2) in *.
  rewrite <- (Csqrt_pos (sqrt A)) by apply sqrt_pos. now rewrite pow2_sqrt.
Qed.
(** C82. A half space of permittivity e1 < 0 under an environment e0 > 0: with -0
    as the imaginary part of e1 the reflection coefficient of a propagating wave is
    the complex conjugate of that with +0, which is another number; that of an evanescent
    wave is its reciprocal. *)
Lemma C82_lossless_metal_proof :
  forall (p : bool) (e0 e1 : R) nu0 (nu q : R), 0 < e0 -> e1 < 0 ->
  let refl t := s_refl_coef (mkSS [real_with false e0; real_with t e1] [] nu0) (Some q) None (Some nu) (Spec.pol p) in
  (q ^ 2 < e0 * nu ^ 2 ->
     exists r : C, refl false = Ok (Some r) /\ refl true = Ok (Some (Cconj r)) /\ Cmod r = 1 /\ Im r <> 0) /\
  (e0 * nu ^ 2 < q ^ 2 ->
     forall r : C, refl false = Ok (Some r) -> p = true \/ nu <> 0 ->
     r <> RtoC 0 /\ refl true = Ok (Some (1 / r)%C)).
Proof.
  intros p e0 e1 nu0 nu q H0 H1 refl.
  pose proof (pow2_ge_0 nu) as Hnu2. pose proof (pow2_ge_0 q) as Hq2.
  split; intro Hq.
  - set (a := sqrt (e0 * nu ^ 2 - q ^ 2)). set (g := sqrt (q ^ 2 - e1 * nu ^ 2)).
    assert (Ha : 0 < a) by (apply sqrt_lt_R0; lra).
    assert (Hn : 0 < nu ^ 2) by nra.
    assert (Hg : 0 < g) by (apply sqrt_lt_R0; nra).
    assert (K0 : kz nu q (RtoC e0) = RtoC a) by (apply kz_real_pos; lra).
    assert (K1 : kz nu q (RtoC e1) = (0, g)) by (apply kz_real_neg; nra).
    set (y := if p then e0 * g / (e1 * a) else g / a).
    assert (Hy : y <> 0).
    { unfold y. destruct p; apply Rmult_integral_contrapositive; split; try nra; apply Rinv_neq_0_compat; nra. }
    assert (Ef : lfactor p (RtoC e0, kz nu q (RtoC e0)) (RtoC e1, kz nu q (RtoC e1)) = (0, y)).
    { rewrite K0, K1. unfold lfactor, y. cbn [fst snd]. destruct p.
      - rewrite <- RtoC_mult. apply C_eq; unfold Re, Im, Cdiv, Cmult, Cinv, RtoC; cbn; field; repeat split; nra.
      - apply C_eq; unfold Re, Im, Cdiv, Cmult, Cinv, RtoC; cbn; field; repeat split; nra. }
    assert (KN : kz nu q (RtoC e0) <> RtoC 0) by (rewrite K0; intro E; apply RtoC_inj in E; lra).
    unfold refl. fold (half false e0 e1 nu0) (half true e0 e1 nu0). rewrite !half_refl by assumption. cbv zeta. rewrite Ef.
    assert (N1 : (1 + (0, y))%C <> RtoC 0) by (intro E; apply (f_equal fst) in E; cbn in E; lra).
    assert (N2 : (1 - (0, y))%C <> RtoC 0) by (intro E; apply (f_equal fst) in E; cbn in E; lra).
    rewrite !cdiv_ok by assumption. exists ((1 - (0, y)) / (1 + (0, y)))%C.
    assert (P : 0 < 1 + y * y) by nra.
    assert (V : ((1 - (0, y)) / (1 + (0, y)))%C = ((1 - y * y) / (1 + y * y), - 2 * y / (1 + y * y))%R).
    { apply C_eq; unfold Re, Im, Cdiv, Cmult, Cinv, Cminus, Cplus, Copp, RtoC; cbn; field; lra. }
    assert (V' : ((1 + (0, y)) / (1 - (0, y)))%C = ((1 - y * y) / (1 + y * y), 2 * y / (1 + y * y))%R).
    { apply C_eq; unfold Re, Im, Cdiv, Cmult, Cinv, Cminus, Cplus, Copp, RtoC; cbn; field; lra. }
    rewrite V, V'. split; [reflexivity|]. split; [|split].
    + f_equal. f_equal. apply C_eq; unfold Re, Im, Cconj; cbn; field; lra.
    + unfold Cmod. cbn [fst snd]. replace (((1 - y * y) / (1 + y * y)) ^ 2 + (-2 * y / (1 + y * y)) ^ 2) with 1 by (field; lra). apply sqrt_1.
    + cbn. unfold Rdiv. apply Rmult_integral_contrapositive. split; [lra|]. apply Rinv_neq_0_compat; lra.
  - set (h := sqrt (q ^ 2 - e0 * nu ^ 2)). set (g := sqrt (q ^ 2 - e1 * nu ^ 2)).
    assert (Hh : 0 < h) by (apply sqrt_lt_R0; lra).
    assert (Hg : h <= g) by (apply sqrt_le_1_alt; nra).
    assert (K0 : kz nu q (RtoC e0) = (0, h)) by (apply kz_real_neg; lra).
    assert (K1 : kz nu q (RtoC e1) = (0, g)) by (apply kz_real_neg; nra).
    assert (KN : kz nu q (RtoC e0) <> RtoC 0) by (rewrite K0; intro E; apply (f_equal snd) in E; cbn in E; lra).
    set (y := if p then e0 * g / (e1 * h) else g / h).
    assert (Ef : lfactor p (RtoC e0, kz nu q (RtoC e0)) (RtoC e1, kz nu q (RtoC e1)) = RtoC y).
    { rewrite K0, K1. unfold lfactor, y. cbn [fst snd]. destruct p.
      - apply C_eq; unfold Re, Im, Cdiv, Cmult, Cinv, RtoC; cbn; field; repeat split; nra.
      - apply C_eq; unfold Re, Im, Cdiv, Cmult, Cinv, RtoC; cbn; field; repeat split; nra. }
    unfold refl. fold (half false e0 e1 nu0) (half true e0 e1 nu0). rewrite !half_refl by assumption. cbv zeta. rewrite Ef.
    intros r Hr Hpn. injection Hr as Hr.
    assert (N2 : 1 - y <> 0).
    { unfold y. destruct p.
      - assert (e0 * g / (e1 * h) < 0); [|lra]. unfold Rdiv. assert (/ (e1 * h) < 0) by (apply Rinv_lt_0_compat; nra).
        assert (0 < e0 * g) by nra. nra.
      - destruct Hpn as [?|Hn]; [discriminate|]. assert (0 < nu ^ 2) by now apply pow2_gt_0.
        assert (h < g) by (apply sqrt_lt_1_alt; nra).
        replace (1 - g / h) with ((h - g) / h) by (field; lra). unfold Rdiv. apply Rmult_integral_contrapositive.
        split; [lra|]. apply Rinv_neq_0_compat; lra. }
    destruct (Req_EM_T (1 + y) 0) as [E|N1].
    { unfold cdiv in Hr. cbn in Hr. destruct (Ceq_dec (1 + RtoC y)%C (RtoC 0)) as [_|N]; [discriminate|].
      destruct N. rewrite <- RtoC_plus, E. reflexivity. }
    assert (N1' : (1 + RtoC y)%C <> RtoC 0) by (rewrite <- RtoC_plus; intro E; now apply RtoC_inj in E).
    assert (N2' : (1 - RtoC y)%C <> RtoC 0) by (rewrite <- RtoC_minus; intro E; now apply RtoC_inj in E).
    rewrite cdiv_ok in Hr by exact N1'. injection Hr as <-. rewrite cdiv_ok by exact N2'. split.
    + apply Cdiv_neq_0; assumption.
    + f_equal. f_equal. field. split; assumption.
Qed.

(** C82. At wavenumber 0 the p-polarised coefficient of a substrate made from a
    real beta > 1 is 1/beta; made from the permittivity it is beta, the quasistatic
    one. *)
Lemma C82_zero_wavenumber_proof :
  forall (e0 b q : R) (s : bool) nu0, 0 < e0 -> 1 < b -> q <> 0 ->
  exists e1, s_eps_from_beta (real_with false e0) [given (s, b)] = [Some (real_with false e0); Some e1] /\
    s_refl_coef (mkSS [real_with false e0; e1] [] nu0) (Some q) None (Some 0) "p" = Ok (Some (RtoC (1 / b))) /\
    s_refl_coef (mkSS [real_with false e0; real_with false (Re (value e1))] [] nu0) (Some q) None (Some 0) "p"
      = Ok (Some (RtoC b)).
Proof.
  intros e0 b q s nu0 He Hb Hq.
  assert (Hp : pr b < 0) by (apply (pr_neg b); rewrite Rabs_right; lra).
  exists (real_with true (pr b * e0)). split.
  - unfold s_eps_from_beta. cbn [map s_cumprod s_cumprod_from].
    change (s_permitivitty (given ?x) (of_real 1)) with (perm1 x).
    rewrite perm1_eq by (cbn; lra). cbn [snd olift2]. rewrite of_real_rw, !rw_mul by lra.
    rewrite (neg_pos 1), (neg_pos e0), (neg_neg (pr b)) by lra. rewrite Rmult_1_l.
    unfold gb. destruct (Rlt_dec 1 b); [|lra]. reflexivity.
  - cbn [value real_with sre val plus signed Re fst]. change (val (plus (pr b * e0))) with (pr b * e0).
    fold (half true e0 (pr b * e0) nu0) (half false e0 (pr b * e0) nu0).
    assert (Hq2 : 0 < q ^ 2) by now apply pow2_gt_0.
    assert (K : forall x, kz 0 q (RtoC x) = (0, sqrt (q ^ 2))).
    { intro x. rewrite kz_real_neg by nra. f_equal. f_equal. ring. }
    assert (Hs : 0 < sqrt (q ^ 2)) by now apply sqrt_lt_R0.
    assert (KN : kz 0 q (RtoC e0) <> RtoC 0) by (rewrite K; intro E; apply (f_equal snd) in E; cbn [snd RtoC] in E; lra).
    change "p"%string with (Spec.pol true). rewrite !half_refl by (assumption || nra). cbv zeta.
    set (f := lfactor _ _ _).
    assert (Ef : f = RtoC (/ pr b)).
    { unfold f, lfactor. cbn [fst snd]. rewrite !K. rewrite <- (K e0).
      rewrite <- RtoC_mult || idtac. rewrite RtoC_mult, RtoC_inv by lra. field. repeat split; trivial;
      intro E; apply RtoC_inj in E; lra. }
    assert (Ei : / pr b = (1 - b) / (1 + b)) by (unfold pr; field; lra).
    rewrite Ef, Ei, <- RtoC_plus, <- RtoC_minus.
    replace (1 + (1 - b) / (1 + b)) with (2 / (1 + b)) by (field; lra).
    replace (1 - (1 - b) / (1 + b)) with (2 * b / (1 + b)) by (field; lra).
    assert (D : 0 < / (1 + b)) by (apply Rinv_0_lt_compat; lra).
    rewrite !cdiv_ok by (intro E; apply RtoC_inj in E; unfold Rdiv in E; nra).
    rewrite <- !RtoC_div by (unfold Rdiv; nra). split; do 3 f_equal; field; lra.
Qed.

(** C82. Equal permittivities, different reflection coefficients. *)
Lemma C82_same_permittivities_refuted_proof :
  ~ (forall (s s' : ssample) q th nu pol, Forall proper_c (s_eps_stack s) -> Forall proper_c (s_eps_stack s') ->
     plain_sample s = plain_sample s' -> s_refl_coef s q th nu pol = s_refl_coef s' q th nu pol).
Proof.
  intro H.
  destruct (C82_lossless_metal_proof true 1 (-5) None 1 0) as [L _]; try lra.
  destruct L as (r & E1 & E2 & _ & Hi); [lra|].
  specialize (H (mkSS [real_with false 1; real_with false (-5)] [] None) (mkSS [real_with false 1; real_with true (-5)] [] None)
                (Some 0) None (Some 1) (Spec.pol true)).
  rewrite E1, E2 in H. 
  assert (E : Ok (Some r) = Ok (Some (Cconj r))).
  { apply H; [repeat constructor; apply rw_proper..|reflexivity]. }
  injection E as E. apply Hi. apply (f_equal snd) in E. destruct r as [x y]. cbn in *. lra.
Qed.

(** C82. Example: beta = 3/2 in vacuum is a substrate of permittivity -5 below the
    cut. *)
Lemma C82_example_proof :
  s_eps_from_beta (real_with false 1) [given (false, 3 / 2)] = [Some (real_with false 1); Some (real_with true (-5))] /\
  below_cut (real_with true (-5)) /\ ~ below_cut (real_with false (-5)) /\
  branch (real_with true (-5)) (0, - sqrt 5) /\ is_kz 1 0 (value (real_with true (-5))) (0, - sqrt 5).
Proof.
  split; [|split; [|split; [|split]]].
  - unfold s_eps_from_beta. cbn [map s_cumprod s_cumprod_from].
    change (s_permitivitty (given ?x) (of_real 1)) with (perm1 x).
    rewrite perm1_eq by (cbn; lra). cbn [snd olift2]. rewrite of_real_rw.
    assert (E : pr (3 / 2) = -5) by (unfold pr; field). rewrite E, !rw_mul by lra.
    rewrite (neg_pos 1), (neg_neg (-5)), !Rmult_1_r by lra. unfold gb. destruct (Rlt_dec 1 (3 / 2)); [|lra]. reflexivity.
  - apply rw_below. split; [lra|reflexivity].
  - intro H. apply rw_below in H. destruct H; discriminate.
  - right. split; [apply rw_below; split; [lra|reflexivity]|]. right. cbn. split; [lra|]. pose proof (sqrt_pos 5). lra.
  - unfold is_kz. rewrite rw_value. apply C_eq; unfold Re, Im; cbn; [|ring].
    pose proof (sqrt_sqrt 5). lra.
Qed.
