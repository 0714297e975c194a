(** * Proofs: Taylor series of the tip models *)
From Coq Require Import String Reals Lra Lia ZArith List Bool.
From Coquelicot Require Import Rcomplements Complex.
From Verif Require Import Num NumLemmas LimLemmas ModelBase ModelSample ModelTip StackLemmas Spec
  ProofsStackQS ProofsStackQS2 ProofsBulkFF ProofsSym ProofsPassive DemodLemmas ProofsDemod ProofsTip ProofsTip2 ProofsTip3.
Import ListNotations.
Open Scope R_scope.

Lemma height_tip z A N k : height (z + A) A N k = tip_height z A N k.
Proof.
  unfold height, tip_height, node. replace (- PI + INR k * (2 * PI / INR N)) with (2 * PI * INR k / INR N - PI) by (unfold Rdiv; ring).
  rewrite cos_minus, cos_PI, sin_PI. ring.
Qed.
Lemma tip_height_N z A N : N <> O -> tip_height z A N N = tip_height z A N 0.
Proof. intros H. rewrite <- !height_tip. now apply height_N. Qed.

(** the demodulated mean of finite samples *)
Definition tmean (z A : R) (n : Z) (N : nat) (g : R -> C) : C :=
  cmean N (fun k => (g (tip_height z A N k) * ph n (node N k))%C).

Lemma demod_tip D f (g : R -> C) z A n nt :
  let N := given_or (d_n_trapz D) nt in
  N <> O -> (forall x, exists c, f x = Ok c) ->
  (forall k, (k < N)%nat -> f (tip_height z A N k) = Ok (Some (g (tip_height z A N k)))) ->
  demod D f (z + A) A n nt = Ok (Some (tmean z A n N g)).
Proof.
  intros N HN Ht Hf.
  assert (Hf' : forall k, (k <= N)%nat -> f (height (z + A) A N k) = Ok (Some (g (height (z + A) A N k)))).
  { intros k Hk. rewrite height_tip. destruct (Nat.eq_dec k N) as [->|Hne].
    - rewrite tip_height_N by exact HN. apply Hf. lia.
    - apply Hf. lia. }
  rewrite (demod_mean D f (fun x => Some (g x)) (z + A) A n nt HN (Ht _) Hf'). f_equal.
  change (dflt (d_n_trapz D) nt) with N. unfold dmean, tmean.
  rewrite (mean_Some N _ (fun k => g (tip_height z A N k) * ph n (node N k))%C HN); [reflexivity|].
  intros k Hk. cbv beta. rewrite height_tip. reflexivity.
Qed.
Lemma tmean_ext z A n N g h : (forall k, (k < N)%nat -> g (tip_height z A N k) = h (tip_height z A N k)) ->
  tmean z A n N g = tmean z A n N h.
Proof. intros H. unfold tmean. apply cmean_ext. intros k Hk. now rewrite H. Qed.
Lemma tmean_plus z A n N g h : tmean z A n N (fun x => g x + h x)%C = (tmean z A n N g + tmean z A n N h)%C.
Proof. unfold tmean. rewrite <- cmean_plus. apply cmean_ext. intros k _. ring. Qed.
Lemma tmean_scal z A n N c g : tmean z A n N (fun x => c * g x)%C = (c * tmean z A n N g)%C.
Proof. unfold tmean. rewrite <- cmean_scal. apply cmean_ext. intros k _. ring. Qed.
Lemma tmean_zero z A n N : tmean z A n N (fun _ => RtoC 0) = RtoC 0.
Proof.
  transitivity (RtoC 0 * tmean z A n N (fun _ => RtoC 0))%C; [|ring].
  rewrite <- tmean_scal. apply tmean_ext. intros; ring.
Qed.
Lemma tmean_sum {T} z A n N (g : T -> R -> C) l :
  Csum (map (fun j => tmean z A n N (g j)) l) = tmean z A n N (fun x => Csum (map (fun j => g j x) l)).
Proof.
  induction l as [|j l IH].
  - cbn [map Csum fold_right]. symmetry. apply tmean_zero.
  - cbn [map Csum fold_right]. unfold Csum in IH. rewrite IH. symmetry. apply (tmean_plus z A n N (g j)).
Qed.
Lemma tmean_one z A n N : N <> O -> resolved N n ->
  tmean z A n N (fun _ => RtoC 1) = (if Z.eqb n 0 then RtoC 1 else RtoC 0).
Proof.
  intros HN [->|Hn]; unfold tmean.
  - rewrite (cmean_ext N _ (fun _ => RtoC 1)) by (intros k _; rewrite ph_0; ring). now apply cmean_const.
  - destruct (Z.eqb_spec n 0) as [->|_]; [exfalso; apply Hn; now exists 0%Z|].
    rewrite (cmean_ext N _ (fun k => ph n (node N k))) by (intros; ring). now apply mean_ph.
Qed.
Lemma ph_mod n t : Cmod (ph n t) = 1.
Proof. unfold ph. rewrite Cexp_mod. unfold Re. cbn [fst]. apply exp_0. Qed.
Lemma tmean_bound z A n N g B : N <> O ->
  (forall k, (k < N)%nat -> Cmod (g (tip_height z A N k)) <= B) -> Cmod (tmean z A n N g) <= B.
Proof.
  intros HN H. apply cmean_bound; [exact HN|]. intros k Hk. rewrite Cmod_mult, ph_mod, Rmult_1_r. auto.
Qed.

(** finite geometric series *)
Lemma geom_remainder (w : C) m : (1 - w <> 0)%C ->
  (Csum (map (fun k => Cpown w k) (seq 0 m)) = 1 / (1 - w) - Cpown w m / (1 - w))%C.
Proof.
  intros H. pose proof (geom_sum w m) as E.
  assert (E' : (Csum (map (fun k => Cpown w k) (seq 0 m)) * (1 - w) = 1 - Cpown w m)%C).
  { replace (1 - Cpown w m)%C with (- (Cpown w m - 1))%C by ring. rewrite <- E. ring. }
  replace (Csum (map (fun k => Cpown w k) (seq 0 m))) with (Csum (map (fun k => Cpown w k) (seq 0 m)) * (1 - w) / (1 - w))%C by (field; exact H).
  rewrite E'. field. exact H.
Qed.
Lemma Cpown_mult (a b : C) m : Cpown (a * b)%C m = (Cpown a m * Cpown b m)%C.
Proof. induction m as [|m IH]; cbn [Cpown]; [ring|]. rewrite IH. ring. Qed.
Lemma Cmod_pown (a : C) m : Cmod (Cpown a m) = Cmod a ^ m.
Proof. induction m as [|m IH]; cbn [Cpown pow]; [apply Cmod_1|]. now rewrite Cmod_mult, IH. Qed.
Lemma Cmod_1_minus (w : C) rho : Cmod w <= rho -> rho < 1 -> (1 - w <> 0)%C /\ 1 - rho <= Cmod (1 - w)%C.
Proof.
  intros H H1. assert (H2 : 1 - rho <= Cmod (1 - w)%C).
  { pose proof (Cmod_triangle (1 - w)%C w) as T. replace (1 - w + w)%C with (RtoC 1) in T by ring. rewrite Cmod_1 in T. lra. }
  split; [|exact H2]. apply Cmod_gt_0. lra.
Qed.

(** ** C28 *)
Section FDMTaylor.
Context (D : Defaults) (z A : R) (n : Z) (nt : option nat) (d0 d1 r L : R) (g : C).
Let N := given_or (d_n_trapz D) nt.
Context (HN : N <> O).
Context (R0 : forall k, (k < N)%nat -> fdm_regular (tip_height z A N k) d0 r L).
Context (R1 : forall k, (k < N)%nat -> fdm_regular (tip_height z A N k) d1 r L).
Let f0 x := fdm_f x d0 r L g. Let f1 x := fdm_f x d1 r L g.

Lemma taylor_coef_S j :
  fdm_taylor_coef D z (S j) A n (rr r) (rr L) (Some g) (rr d0) (rr d1) nt
  = Ok (Some (tmean z A n N (fun x => f0 x * Cpown (f1 x) j / 2)%C)).
Proof.
  unfold fdm_taylor_coef.
  assert (E : demod D (fun z0 => Ok (fdm_geom_func_taylor (rr z0) (S j) (rr r) (rr L) (Some g) (rr d0) (rr d1))) (z + A) A n nt
          = Ok (Some (tmean z A n N (fun x => f0 x * Cpown (f1 x) j)%C))).
  { apply demod_tip; [exact HN|eauto|]. intros k Hk. f_equal. unfold fdm_geom_func_taylor.
    change (given_or (d_n_trapz D) nt) with N in Hk |- *.
    rewrite (geom_ok _ _ _ _ g (R0 k Hk)), (geom_ok _ _ _ _ g (R1 k Hk)). fold (f0 (tip_height z A N k)) (f1 (tip_height z A N k)).
    replace (Z.of_nat (S j) - 1)%Z with (Z.of_nat j) by lia.
    replace (cpowz (Some (f1 (tip_height z A N k))) (Z.of_nat j)) with (Some (Cpown (f1 (tip_height z A N k)) j)); [reflexivity|].
    destruct j as [|j]; [reflexivity|]. cbn [Z.of_nat cpowz]. rewrite SuccNat2Pos.id_succ. reflexivity. }
  rewrite E. cbn [rbind Nat.eqb]. f_equal. unfold rc. rewrite cdiv_ok by exact C2_neq_0. f_equal.
  replace (tmean z A n N (fun x => f0 x * Cpown (f1 x) j)%C / 2)%C with (/ 2 * tmean z A n N (fun x => f0 x * Cpown (f1 x) j)%C)%C by (unfold Cdiv; ring).
  rewrite <- tmean_scal. apply tmean_ext. intros. unfold Cdiv. ring.
Qed.
Lemma taylor_coef_0 :
  fdm_taylor_coef D z 0 A n (rr r) (rr L) (Some g) (rr d0) (rr d1) nt = Ok (Some (if Z.eqb n 0 then RtoC 1 else RtoC 0)).
Proof.
  unfold fdm_taylor_coef.
  destruct (demod_total D (fun z0 => fdm_geom_func_taylor (rr z0) 0 (rr r) (rr L) (Some g) (rr d0) (rr d1)) (z + A) A n nt) as [v Hv].
  rewrite Hv. cbn [rbind Nat.eqb]. destruct (Z.eqb n 0); reflexivity.
Qed.
Lemma taylor_sum (beta : C) m :
  (let! terms := mapM (fun j => let! a := fdm_taylor_coef D z j A n (rr r) (rr L) (Some g) (rr d0) (rr d1) nt in Ok (a * cpown (Some beta) j)%cv) (seq 0 (S m)) in Ok (csum terms))
  = Ok (Some ((if Z.eqb n 0 then RtoC 1 else RtoC 0)
        + tmean z A n N (fun x => beta * f0 x / 2 * Csum (map (fun j => Cpown (beta * f1 x) j) (seq 0 m))))%C).
Proof.
  rewrite (mapM_ok _ (fun j => Some (match j with O => (if Z.eqb n 0 then RtoC 1 else RtoC 0)
      | S j => tmean z A n N (fun x => beta * f0 x / 2 * Cpown (beta * f1 x) j)%C end))).
  - cbn [rbind]. f_equal. rewrite (csum_map_Some _ (fun j => match j with O => (if Z.eqb n 0 then RtoC 1 else RtoC 0)
      | S j => tmean z A n N (fun x => beta * f0 x / 2 * Cpown (beta * f1 x) j)%C end)) by reflexivity.
    f_equal. cbn [seq map Csum fold_right]. f_equal.
    rewrite <- seq_shift, map_map. change (fold_right Cplus (RtoC 0)) with Csum.
    rewrite (tmean_sum z A n N (fun j x => beta * f0 x / 2 * Cpown (beta * f1 x) j)%C).
    apply tmean_ext. intros k Hk. rewrite <- Csum_scal. reflexivity.
  - intros [|j] _.
    + rewrite taylor_coef_0. cbn [rbind]. f_equal. unfold cmul, cpown. cbn [olift2 olift1 Cpown]. f_equal. ring.
    + rewrite taylor_coef_S. cbn [rbind]. f_equal. unfold cmul, cpown. cbn [olift2 olift1]. f_equal.
      rewrite Cmult_comm, <- tmean_scal. apply tmean_ext. intros k Hk. rewrite Cpown_mult. cbn [Cpown]. unfold Cdiv. ring.
Qed.
End FDMTaylor.

Lemma fdm_n_value lg D s A n z_tip nt r_tip L_tip g d_Q0 d_Q1 d_Qa n_lag beta :
  let N := given_or (d_n_trapz D) nt in let z := given_or (d_z_tip D) z_tip in
  let r := given_or (d_r_tip D) r_tip in let L := given_or (d_L_tip D) L_tip in
  let d0 := given_or (131 / 100 * L / (L + 2 * r)) d_Q0 in let d1 := given_or (d_d_Q1 D) d_Q1 in
  let G := given_or (d_g_factor D) g in
  multilayer s = false -> refl_coef_qs s (rr 0) = Ok (Some beta) -> N <> O ->
  (forall k, (k < N)%nat -> let x := tip_height z A N k in
     fdm_regular x d0 r L /\ fdm_regular x d1 r L /\ (1 - beta * fdm_f x d1 r L G <> 0)%C) ->
  fdm_eff_pol_n lg D s A n z_tip nt r_tip L_tip g d_Q0 d_Q1 d_Qa n_lag (Some "bulk"%string)
  = Ok (Some (tmean z A n N (fun x => 1 + beta * fdm_f x d0 r L G / (2 * (1 - beta * fdm_f x d1 r L G)))%C)).
Proof.
  intros N z r L d0 d1 G Hm Hb HN HK. unfold fdm_eff_pol_n. rewrite dflt_given. fold z.
  apply demod_tip; [exact HN| |].
  - intros x. unfold fdm_eff_pol. destruct (fdm_defaults _ _ _ _ _ _ _) as [[[[[r' L'] G'] d0'] d1'] da'].
    cbn [String.eqb Ascii.eqb Bool.eqb]. rewrite Hm, Hb. cbn [rbind]. eauto.
  - intros k Hk. fold N in Hk |- *. destruct (HK k Hk) as [R0 [R1 H1]]. set (x := tip_height z A N k) in *.
    rewrite (bulk_eff_pol lg D s (Some x) r_tip L_tip g d_Q0 d_Q1 d_Qa n_lag beta Hm Hb R0 R1).
    cbn [given_or]. fold r L d0 d1 G. rewrite cdiv_ok; [reflexivity|]. now apply Cmult_neq_0; [exact C2_neq_0|].
Qed.
Lemma fdm_taylor_value lg D s A n z_tip nt r_tip L_tip g d_Q0 d_Q1 d_Qa n_lag beta J :
  let N := given_or (d_n_trapz D) nt in let z := given_or (d_z_tip D) z_tip in
  let r := given_or (d_r_tip D) r_tip in let L := given_or (d_L_tip D) L_tip in
  let d0 := given_or (131 / 100 * L / (L + 2 * r)) d_Q0 in let d1 := given_or (d_d_Q1 D) d_Q1 in
  let G := given_or (d_g_factor D) g in
  multilayer s = false -> refl_coef_qs s (rr 0) = Ok (Some beta) -> N <> O ->
  (forall k, (k < N)%nat -> let x := tip_height z A N k in fdm_regular x d0 r L /\ fdm_regular x d1 r L) ->
  fdm_eff_pol_n_taylor lg D s A n z_tip r_tip L_tip g d_Q0 d_Q1 d_Qa n_lag (Some "bulk"%string) nt (Some (S J))
  = Ok (Some ((if Z.eqb n 0 then RtoC 1 else RtoC 0)
        + tmean z A n N (fun x => beta * fdm_f x d0 r L G / 2 * Csum (map (fun j => Cpown (beta * fdm_f x d1 r L G) j) (seq 0 J))))%C).
Proof.
  intros N z r L d0 d1 G Hm Hb HN HK. unfold fdm_eff_pol_n_taylor.
  assert (HP : 0 < r /\ 0 < L) by (destruct (HK O ltac:(lia)) as [R0 _]; split; apply R0).
  rewrite (fdm_defaults_eq D r_tip L_tip g d_Q0 d_Q1 d_Qa) by apply HP.
  rewrite dflt_given. fold z r L d0 d1 G. cbn [String.eqb Ascii.eqb Bool.eqb dflt]. rewrite Hm, Hb. cbn [rbind].
  apply taylor_sum; auto; intros k Hk; apply (HK k Hk).
Qed.
Lemma taylor_none_bulk lg D s A n z_tip nt r_tip L_tip g d_Q0 d_Q1 d_Qa n_lag J : multilayer s = false ->
  fdm_eff_pol_n_taylor lg D s A n z_tip r_tip L_tip g d_Q0 d_Q1 d_Qa n_lag None nt J
  = fdm_eff_pol_n_taylor lg D s A n z_tip r_tip L_tip g d_Q0 d_Q1 d_Qa n_lag (Some "bulk"%string) nt J.
Proof. intros H. unfold fdm_eff_pol_n_taylor. rewrite H. reflexivity. Qed.
Lemma eff_pol_n_none_bulk lg D s A n z_tip nt r_tip L_tip g d_Q0 d_Q1 d_Qa n_lag : multilayer s = false ->
  fdm_eff_pol_n lg D s A n z_tip nt r_tip L_tip g d_Q0 d_Q1 d_Qa n_lag None
  = fdm_eff_pol_n lg D s A n z_tip nt r_tip L_tip g d_Q0 d_Q1 d_Qa n_lag (Some "bulk"%string).
Proof. intros H. unfold fdm_eff_pol_n, fdm_eff_pol. rewrite H. reflexivity. Qed.

(** C28. Over a bulk sample the difference between fdm.eff_pol_n and its Taylor
    series with n_tayl = J + 1 terms is exactly the demodulation of the tail of
    the geometric series, at every harmonic the sampling resolves. *)
Lemma C28_exact_remainder_proof :
  forall (laggauss : laggauss_t) (D : Defaults) (e0 e1 : C) nu (A_tip : R) (n : Z) (n_trapz : option nat)
    (z_tip r_tip L_tip : option R) (g_factor : option C) (d_Q0 d_Q1 d_Qa : option R) (n_lag : option nat) (J : nat),
  let s := stack [e0; e1] [] nu in let beta := ((e1 - e0) / (e1 + e0))%C in
  let N := given_or (d_n_trapz D) n_trapz in let z := given_or (d_z_tip D) z_tip in
  let r := given_or (d_r_tip D) r_tip in let L := given_or (d_L_tip D) L_tip in
  let d0 := given_or (131 / 100 * L / (L + 2 * r)) d_Q0 in let d1 := given_or (d_d_Q1 D) d_Q1 in
  let f0 := fun x => fdm_f x d0 r L (given_or (d_g_factor D) g_factor) in
  let f1 := fun x => fdm_f x d1 r L (given_or (d_g_factor D) g_factor) in
  e1 <> RtoC 0 -> (e0 + e1 <> 0)%C -> N <> O -> resolved N n ->
  (forall k, (k < N)%nat -> let x := tip_height z A_tip N k in
     fdm_regular x d0 r L /\ fdm_regular x d1 r L /\ (1 - beta * f1 x <> 0)%C) ->
  exists a t e : C,
    fdm_eff_pol_n laggauss D s A_tip n z_tip n_trapz r_tip L_tip g_factor d_Q0 d_Q1 d_Qa n_lag None = Ok (Some a) /\
    fdm_eff_pol_n_taylor laggauss D s A_tip n z_tip r_tip L_tip g_factor d_Q0 d_Q1 d_Qa n_lag None n_trapz (Some (S J)) = Ok (Some t) /\
    demod D (fun x => Ok (Some (beta * f0 x / 2 * Cpown (beta * f1 x) J / (1 - beta * f1 x))%C)) (z + A_tip) A_tip n n_trapz = Ok (Some e) /\
    a = (t + e)%C.
Proof.
  intros lg D e0 e1 nu A n nt z_tip r_tip L_tip g d_Q0 d_Q1 d_Qa n_lag J s beta N z r L d0 d1 f0 f1 H1 H2 HN Hn HK.
  assert (Hb : refl_coef_qs s (rr 0) = Ok (Some beta)) by (now apply bulk_qs).
  eexists. eexists. eexists. split; [|split; [|split]].
  - rewrite eff_pol_n_none_bulk by reflexivity. apply (fdm_n_value lg D s A n z_tip nt r_tip L_tip g d_Q0 d_Q1 d_Qa n_lag beta); auto.
  - rewrite taylor_none_bulk by reflexivity. apply (fdm_taylor_value lg D s A n z_tip nt r_tip L_tip g d_Q0 d_Q1 d_Qa n_lag beta); auto.
    intros k Hk. destruct (HK k Hk) as [Q1 [Q2 _]]. auto.
  - apply (demod_tip D _ (fun x => (beta * f0 x / 2 * Cpown (beta * f1 x) J / (1 - beta * f1 x))%C)); [exact HN|eauto|]. intros k Hk. reflexivity.
  - fold N z r L d0 d1. rewrite <- (tmean_one z A n N HN Hn), <- Cplus_assoc, <- !tmean_plus. apply tmean_ext.
    intros k Hk. destruct (HK k Hk) as [_ [_ Q]]. set (x := tip_height z A N k) in *. fold (f0 x) (f1 x).
    rewrite geom_remainder by exact Q. field. split; [exact C2_neq_0|exact Q].
Qed.

(** C28. If |beta f_1| <= rho < 1 and |beta f_0| <= B at every sampled height,
    the truncation error is at most B rho^J / (2 (1 - rho)). *)
Lemma C28_error_bound_proof :
  forall (laggauss : laggauss_t) (D : Defaults) (e0 e1 : C) nu (A_tip : R) (n : Z) (n_trapz : option nat)
    (z_tip r_tip L_tip : option R) (g_factor : option C) (d_Q0 d_Q1 d_Qa : option R) (n_lag : option nat) (rho B : R),
  let s := stack [e0; e1] [] nu in let beta := ((e1 - e0) / (e1 + e0))%C in
  let N := given_or (d_n_trapz D) n_trapz in let z := given_or (d_z_tip D) z_tip in
  let r := given_or (d_r_tip D) r_tip in let L := given_or (d_L_tip D) L_tip in
  let d0 := given_or (131 / 100 * L / (L + 2 * r)) d_Q0 in let d1 := given_or (d_d_Q1 D) d_Q1 in
  let f0 := fun x => fdm_f x d0 r L (given_or (d_g_factor D) g_factor) in
  let f1 := fun x => fdm_f x d1 r L (given_or (d_g_factor D) g_factor) in
  e1 <> RtoC 0 -> (e0 + e1 <> 0)%C -> N <> O -> resolved N n -> rho < 1 ->
  (forall k, (k < N)%nat -> let x := tip_height z A_tip N k in
     fdm_regular x d0 r L /\ fdm_regular x d1 r L /\ Cmod (beta * f0 x)%C <= B /\ Cmod (beta * f1 x)%C <= rho) ->
  exists a : C,
    fdm_eff_pol_n laggauss D s A_tip n z_tip n_trapz r_tip L_tip g_factor d_Q0 d_Q1 d_Qa n_lag None = Ok (Some a) /\
    forall J, exists t : C,
      fdm_eff_pol_n_taylor laggauss D s A_tip n z_tip r_tip L_tip g_factor d_Q0 d_Q1 d_Qa n_lag None n_trapz (Some (S J)) = Ok (Some t) /\
      Cmod (a - t)%C <= B * rho ^ J / (2 * (1 - rho)).
Proof.
  intros lg D e0 e1 nu A n nt z_tip r_tip L_tip g d_Q0 d_Q1 d_Qa n_lag rho B s beta N z r L d0 d1 f0 f1 H1 H2 HN Hn Hrho HK.
  assert (HK' : forall k, (k < N)%nat -> let x := tip_height z A N k in
     fdm_regular x d0 r L /\ fdm_regular x d1 r L /\ (1 - beta * f1 x <> 0)%C).
  { intros k Hk. destruct (HK k Hk) as [Q0 [Q1 [_ Q3]]]. cbv zeta. split; [exact Q0|]. split; [exact Q1|].
    apply (Cmod_1_minus _ rho Q3 Hrho). }
  pose proof (fun J => C28_exact_remainder_proof lg D e0 e1 nu A n nt z_tip r_tip L_tip g d_Q0 d_Q1 d_Qa n_lag J H1 H2 HN Hn HK') as M.
  destruct (M O) as [a [_ [_ [Ha _]]]]. exists a. split; [exact Ha|]. intros J.
  destruct (M J) as [a' [t [e [Ha' [Ht [He E]]]]]].
  pose proof (eq_trans (eq_sym Ha) Ha') as X. assert (Xa : a' = a) by (clear - X; congruence). rewrite Xa in E. clear X Ha'.
  exists t. split; [exact Ht|]. replace (a - t)%C with e by (rewrite E; ring).
  fold beta N z r L d0 d1 in He. 
  assert (E' : e = tmean z A n N (fun x => (beta * f0 x / 2 * Cpown (beta * f1 x) J / (1 - beta * f1 x))%C)).
  { assert (X : demod D (fun x => Ok (Some (beta * f0 x / 2 * Cpown (beta * f1 x) J / (1 - beta * f1 x))%C)) (z + A) A n nt
              = Ok (Some (tmean z A n N (fun x => (beta * f0 x / 2 * Cpown (beta * f1 x) J / (1 - beta * f1 x))%C)))).
    { apply demod_tip; [exact HN|eauto|]. reflexivity. }
    unfold f0, f1 in X. rewrite X in He. unfold f0, f1. congruence. }
  rewrite E'. apply tmean_bound; [exact HN|]. intros k Hk. destruct (HK k Hk) as [_ [_ [Q2 Q3]]].
  set (x := tip_height z A N k) in *. destruct (Cmod_1_minus _ rho Q3 Hrho) as [N1 B1].
  rewrite Cmod_div by exact N1. rewrite Cmod_mult, Cmod_pown. rewrite Cmod_div by exact C2_neq_0.
  rewrite Cmod_R, (Rabs_pos_eq 2) by lra.
  pose proof (Cmod_ge_0 (beta * f0 x)%C). pose proof (Cmod_ge_0 (beta * f1 x)%C).
  assert (HP : Cmod (beta * f1 x)%C ^ J <= rho ^ J) by (apply pow_incr; lra).
  assert (0 <= Cmod (beta * f1 x)%C ^ J) by (apply pow_le; lra).
  replace (B * rho ^ J / (2 * (1 - rho))) with (B / 2 * rho ^ J * / (1 - rho)) by (field; lra).
  unfold Rdiv at 1. apply Rmult_le_compat.
  - apply Rmult_le_pos; lra.
  - apply Rlt_le, Rinv_0_lt_compat. lra.
  - apply Rmult_le_compat; lra.
  - apply Rinv_le_contravar; lra.
Qed.

Lemma max_below (h : nat -> R) (N : nat) : exists B, 0 <= B /\ forall k, (k < N)%nat -> h k <= B.
Proof.
  induction N as [|N [B [HB H]]]; [exists 0; split; [lra|intros; lia]|].
  exists (Rmax B (h N)). split; [eapply Rle_trans; [exact HB|apply Rmax_l]|].
  intros k Hk. destruct (Nat.eq_dec k N) as [->|Hne]; [apply Rmax_r|].
  eapply Rle_trans; [apply H; lia|apply Rmax_l].
Qed.
Lemma max_below_lt (h : nat -> R) (N : nat) c : 0 < c -> (forall k, (k < N)%nat -> 0 <= h k < c) ->
  exists B, 0 <= B < c /\ forall k, (k < N)%nat -> h k <= B.
Proof.
  intros Hc. induction N as [|N IH]; intros H; [exists 0; split; [lra|intros; lia]|].
  destruct IH as [B [HB HB']]; [intros; apply H; lia|].
  pose proof (H N ltac:(lia)). exists (Rmax B (h N)). split.
  - split; [eapply Rle_trans; [apply HB|apply Rmax_l]|]. apply Rmax_lub_lt; lra.
  - intros k Hk. destruct (Nat.eq_dec k N) as [->|Hne]; [apply Rmax_r|].
    eapply Rle_trans; [apply HB'; lia|apply Rmax_l].
Qed.
Lemma geometric_to_0 K rho : 0 <= K -> 0 <= rho < 1 -> forall eps, 0 < eps -> exists J0, forall J, (J0 <= J)%nat -> K * rho ^ J < eps.
Proof.
  intros HK Hr eps He. assert (HE : 0 < eps / (K + 1)) by (apply Rdiv_lt_0_compat; lra).
  destruct (pow_lt_1_zero rho (ltac:(rewrite Rabs_pos_eq; lra)) (eps / (K + 1)) HE) as [J0 H].
  exists J0. intros J HJ. specialize (H J HJ). assert (0 <= rho ^ J) by (apply pow_le; lra).
  rewrite Rabs_pos_eq in H by assumption. apply Rlt_div_r in H; [|lra]. nra.
Qed.

(** C28. Hence the series converges to fdm.eff_pol_n as n_tayl grows, if
    |beta f_1| < 1 at every sampled height. *)
Lemma C28_converges_proof :
  forall (laggauss : laggauss_t) (D : Defaults) (e0 e1 : C) nu (A_tip : R) (n : Z) (n_trapz : option nat)
    (z_tip r_tip L_tip : option R) (g_factor : option C) (d_Q0 d_Q1 d_Qa : option R) (n_lag : option nat),
  let s := stack [e0; e1] [] nu in let beta := ((e1 - e0) / (e1 + e0))%C in
  let N := given_or (d_n_trapz D) n_trapz in let z := given_or (d_z_tip D) z_tip in
  let r := given_or (d_r_tip D) r_tip in let L := given_or (d_L_tip D) L_tip in
  let d0 := given_or (131 / 100 * L / (L + 2 * r)) d_Q0 in let d1 := given_or (d_d_Q1 D) d_Q1 in
  let f1 := fun x => fdm_f x d1 r L (given_or (d_g_factor D) g_factor) in
  e1 <> RtoC 0 -> (e0 + e1 <> 0)%C -> N <> O -> resolved N n ->
  (forall k, (k < N)%nat -> let x := tip_height z A_tip N k in
     fdm_regular x d0 r L /\ fdm_regular x d1 r L /\ Cmod (beta * f1 x)%C < 1) ->
  exists a : C,
    fdm_eff_pol_n laggauss D s A_tip n z_tip n_trapz r_tip L_tip g_factor d_Q0 d_Q1 d_Qa n_lag None = Ok (Some a) /\
    forall eps, 0 < eps -> exists J0, forall J, (J0 <= J)%nat -> exists t : C,
      fdm_eff_pol_n_taylor laggauss D s A_tip n z_tip r_tip L_tip g_factor d_Q0 d_Q1 d_Qa n_lag None n_trapz (Some J) = Ok (Some t) /\
      Cmod (a - t)%C < eps.
Proof.
  intros lg D e0 e1 nu A n nt z_tip r_tip L_tip g d_Q0 d_Q1 d_Qa n_lag s beta N z r L d0 d1 f1 H1 H2 HN Hn HK.
  set (f0 := fun x => fdm_f x d0 r L (given_or (d_g_factor D) g)).
  destruct (max_below (fun k => Cmod (beta * f0 (tip_height z A N k))%C) N) as [B [HB HB']].
  destruct (max_below_lt (fun k => Cmod (beta * f1 (tip_height z A N k))%C) N 1 Rlt_0_1) as [rho [Hr Hr']].
  { intros k Hk. split; [apply Cmod_ge_0|]. apply (HK k Hk). }
  destruct (C28_error_bound_proof lg D e0 e1 nu A n nt z_tip r_tip L_tip g d_Q0 d_Q1 d_Qa n_lag rho B) as [a [Ha HJ]]; auto.
  - apply Hr.
  - intros k Hk. destruct (HK k Hk) as [Q0 [Q1 _]]. cbv zeta. repeat split; try apply Q0; try apply Q1; auto.
    + apply (HB' k Hk).
    + apply (Hr' k Hk).
  - exists a. split; [exact Ha|]. intros eps He.
    assert (HKp : 0 <= B / (2 * (1 - rho))).
    { apply Rmult_le_pos; [exact HB|]. apply Rlt_le, Rinv_0_lt_compat. lra. }
    destruct (geometric_to_0 (B / (2 * (1 - rho))) rho HKp Hr eps He) as [J0 HJ0].
    exists (S J0). intros J HJJ. destruct J as [|J]; [lia|].
    destruct (HJ J) as [t [Ht Hb]]. exists t. split; [exact Ht|]. eapply Rle_lt_trans; [exact Hb|].
    replace (B * rho ^ J / (2 * (1 - rho))) with (B / (2 * (1 - rho)) * rho ^ J) by (field; lra). apply HJ0. lia.
Qed.

(** C28. The highest power of beta used is n_tayl - 1, not n_tayl: a series of
    order 1 does not see the sample at all.  Whatever the sample, method, tip and
    sampling, with n_tayl = 1 a finite result is 1 for n = 0 and 0 otherwise. *)
Lemma C28_order_one_ignores_sample_proof :
  forall (laggauss : laggauss_t) (D : Defaults) (s : sample) (A_tip : R) (n : Z) (n_trapz : option nat)
    (z_tip r_tip L_tip : option R) (g_factor : option C) (d_Q0 d_Q1 d_Qa : option R) (n_lag : option nat)
    (method : option string) (t : C),
  fdm_eff_pol_n_taylor laggauss D s A_tip n z_tip r_tip L_tip g_factor d_Q0 d_Q1 d_Qa n_lag method n_trapz (Some 1%nat) = Ok (Some t) ->
  t = (if Z.eqb n 0 then RtoC 1 else RtoC 0).
Proof.
  intros lg D s A n nt z_tip r_tip L_tip g d_Q0 d_Q1 d_Qa n_lag method t.
  unfold fdm_eff_pol_n_taylor. destruct (fdm_defaults _ _ _ _ _ _ _) as [[[[[r L] G] d0] d1] da]. cbn [dflt].
  match goal with |- rbind ?m _ = _ -> _ => destruct m as [b|] eqn:E; [|discriminate] end. cbn [rbind].
  cbn [seq mapM]. unfold fdm_taylor_coef.
  edestruct (demod_total D) as [v ->]. cbn [rbind Nat.eqb]. intros H.
  destruct b as [b|].
  - destruct (Z.eqb n 0); cbn in H; assert (X := f_equal (fun r => match r with Ok (Some c) => c | _ => t end) H); cbn in X; rewrite <- X;
      apply C_eq; unfold Re, Im; simpl; ring.
  - destruct (Z.eqb n 0); cbn in H; discriminate.
Qed.
(** C28. ... and with n_tayl = 0 it is 0. *)
Lemma C28_order_zero_proof :
  forall (laggauss : laggauss_t) (D : Defaults) (s : sample) (A_tip : R) (n : Z) (n_trapz : option nat)
    (z_tip r_tip L_tip : option R) (g_factor : option C) (d_Q0 d_Q1 d_Qa : option R) (n_lag : option nat)
    (method : option string) v,
  fdm_eff_pol_n_taylor laggauss D s A_tip n z_tip r_tip L_tip g_factor d_Q0 d_Q1 d_Qa n_lag method n_trapz (Some 0%nat) = Ok v ->
  v = Some (RtoC 0).
Proof.
  intros lg D s A n nt z_tip r_tip L_tip g d_Q0 d_Q1 d_Qa n_lag method v.
  unfold fdm_eff_pol_n_taylor. destruct (fdm_defaults _ _ _ _ _ _ _) as [[[[[r L] G] d0] d1] da]. cbn [dflt].
  match goal with |- rbind ?m _ = _ -> _ => destruct m as [b|] eqn:E; [|discriminate] end. cbn [rbind seq mapM].
  intros H. assert (X : csum [] = v) by congruence. rewrite <- X. reflexivity.
Qed.

(** ** C29 *)
Lemma pdm_n_value D s A n z_tip nt r_tip eps_tip alt (alpha beta : C) :
  let N := given_or (d_n_trapz D) nt in let z := given_or (d_z_tip D) z_tip in
  let r := given_or (d_r_tip D) r_tip in
  let f := fun x => (alpha / RtoC (16 * PI * (r + x) ^ 3))%C in
  tip_alpha r eps_tip alt alpha -> refl_coef_qs s (rr 0) = Ok (Some beta) -> N <> O ->
  (forall k, (k < N)%nat -> let x := tip_height z A N k in r + x <> 0 /\ (1 - f x * beta <> 0)%C) ->
  pdm_eff_pol_n D s A n z_tip nt r_tip eps_tip alt = Ok (Some (tmean z A n N (fun x => alpha / (1 - f x * beta))%C)).
Proof.
  intros N z r f Ht Hb HN HK. unfold pdm_eff_pol_n. rewrite dflt_given. fold z.
  apply demod_tip; [exact HN| |].
  - intros x. unfold pdm_eff_pol. rewrite (pdm_defaults_alpha _ _ _ _ _ Ht), Hb. cbn [rbind]. eauto.
  - intros k Hk. fold N in Hk |- *. destruct (HK k Hk) as [Hx H1]. set (x := tip_height z A N k) in *.
    unfold pdm_eff_pol. rewrite (pdm_defaults_alpha _ _ _ _ _ Ht), Hb. cbn [rbind fst snd dflt]. fold r.
    rewrite pdm_geom_ok by exact Hx. fold (f x). unfold cmul, csub, rc. cbn [olift2]. now rewrite cdiv_ok.
Qed.
Lemma pdm_taylor_value D s A n z_tip nt r_tip eps_tip alt (alpha beta : C) J :
  let N := given_or (d_n_trapz D) nt in let z := given_or (d_z_tip D) z_tip in
  let r := given_or (d_r_tip D) r_tip in
  let f := fun x => (alpha / RtoC (16 * PI * (r + x) ^ 3))%C in
  tip_alpha r eps_tip alt alpha -> refl_coef_qs s (rr 0) = Ok (Some beta) -> N <> O ->
  (forall k, (k < N)%nat -> r + tip_height z A N k <> 0) ->
  pdm_eff_pol_n_taylor D s A n z_tip r_tip eps_tip alt nt (Some J)
  = Ok (Some (tmean z A n N (fun x => Csum (map (fun j => Cpown (f x * beta) j) (seq 0 J)))%C)).
Proof.
  intros N z r f Ht Hb HN HK. unfold pdm_eff_pol_n_taylor. rewrite (pdm_defaults_alpha _ _ _ _ _ Ht), Hb.
  cbn [rbind fst snd dflt]. rewrite dflt_given. fold z r.
  rewrite (mapM_ok _ (fun j => Some (tmean z A n N (fun x => Cpown (f x * beta)%C j)))).
  - cbn [rbind]. f_equal. rewrite (csum_map_Some _ (fun j => tmean z A n N (fun x => Cpown (f x * beta)%C j))) by reflexivity.
    f_equal. apply (tmean_sum z A n N (fun j x => Cpown (f x * beta)%C j)).
  - intros j _. unfold pdm_taylor_coef.
    rewrite (demod_tip D _ (fun x => Cpown (f x) j)); [|exact HN|eauto|].
    + cbn [rbind]. f_equal. unfold cmul, cpown. cbn [olift2 olift1]. f_equal. fold N.
      rewrite Cmult_comm, <- tmean_scal. apply tmean_ext. intros. rewrite Cpown_mult. ring.
    + intros k Hk. fold N in Hk |- *. f_equal. rewrite pdm_geom_ok by (apply HK; exact Hk). reflexivity.
Qed.

(** C29. alpha_tip times pdm.eff_pol_n_taylor differs from pdm.eff_pol_n exactly
    by the demodulated tail of the geometric series. *)
Lemma C29_exact_remainder_proof :
  forall (D : Defaults) (s : sample) (A_tip : R) (n : Z) (z_tip r_tip : option R) (n_trapz : option nat)
    (eps_tip alpha_tip : option C) (alpha beta : C) (J : nat),
  let N := given_or (d_n_trapz D) n_trapz in let z := given_or (d_z_tip D) z_tip in
  let r := given_or (d_r_tip D) r_tip in
  let f := fun x => (alpha / RtoC (16 * PI * (r + x) ^ 3))%C in
  tip_alpha r eps_tip alpha_tip alpha -> refl_coef_qs s (rr 0) = Ok (Some beta) -> N <> O ->
  (forall k, (k < N)%nat -> let x := tip_height z A_tip N k in r + x <> 0 /\ (1 - f x * beta <> 0)%C) ->
  exists a t e : C,
    pdm_eff_pol_n D s A_tip n z_tip n_trapz r_tip eps_tip alpha_tip = Ok (Some a) /\
    pdm_eff_pol_n_taylor D s A_tip n z_tip r_tip eps_tip alpha_tip n_trapz (Some J) = Ok (Some t) /\
    demod D (fun x => Ok (Some (Cpown (f x * beta) J / (1 - f x * beta))%C)) (z + A_tip) A_tip n n_trapz = Ok (Some e) /\
    a = (alpha * (t + e))%C.
Proof.
  intros D s A n z_tip r_tip nt eps_tip alt alpha beta J N z r f Ht Hb HN HK.
  eexists. eexists. eexists. split; [|split; [|split]].
  - apply (pdm_n_value D s A n z_tip nt r_tip eps_tip alt alpha beta); auto.
  - apply (pdm_taylor_value D s A n z_tip nt r_tip eps_tip alt alpha beta J); auto. intros k Hk. apply (HK k Hk).
  - apply (demod_tip D _ (fun x => (Cpown (f x * beta) J / (1 - f x * beta))%C)); [exact HN|eauto|reflexivity].
  - fold N z r f. rewrite <- tmean_plus, <- tmean_scal. apply tmean_ext. intros k Hk. destruct (HK k Hk) as [_ Q].
    rewrite geom_remainder by exact Q. field. exact Q.
Qed.

(** C29. Hence, if |beta f| < 1 at every sampled height, pdm.eff_pol_n_taylor
    converges to pdm.eff_pol_n divided by alpha_tip. *)
Lemma C29_converges_to_normalised_proof :
  forall (D : Defaults) (s : sample) (A_tip : R) (n : Z) (z_tip r_tip : option R) (n_trapz : option nat)
    (eps_tip alpha_tip : option C) (alpha beta : C),
  let N := given_or (d_n_trapz D) n_trapz in let z := given_or (d_z_tip D) z_tip in
  let r := given_or (d_r_tip D) r_tip in
  let f := fun x => (alpha / RtoC (16 * PI * (r + x) ^ 3))%C in
  tip_alpha r eps_tip alpha_tip alpha -> refl_coef_qs s (rr 0) = Ok (Some beta) -> N <> O ->
  (forall k, (k < N)%nat -> let x := tip_height z A_tip N k in r + x <> 0 /\ Cmod (f x * beta)%C < 1) ->
  exists a c : C,
    pdm_eff_pol_n D s A_tip n z_tip n_trapz r_tip eps_tip alpha_tip = Ok (Some a) /\ a = (alpha * c)%C /\
    forall eps, 0 < eps -> exists J0, forall J, (J0 <= J)%nat -> exists t : C,
      pdm_eff_pol_n_taylor D s A_tip n z_tip r_tip eps_tip alpha_tip n_trapz (Some J) = Ok (Some t) /\ Cmod (c - t)%C < eps.
Proof.
  intros D s A n z_tip r_tip nt eps_tip alt alpha beta N z r f Ht Hb HN HK.
  destruct (max_below_lt (fun k => Cmod (f (tip_height z A N k) * beta)%C) N 1 Rlt_0_1) as [rho [Hr Hr']].
  { intros k Hk. split; [apply Cmod_ge_0|]. apply (HK k Hk). }
  assert (HK' : forall k, (k < N)%nat -> let x := tip_height z A N k in r + x <> 0 /\ (1 - f x * beta <> 0)%C).
  { intros k Hk. split; [apply (HK k Hk)|]. apply (Cmod_1_minus _ rho); [apply (Hr' k Hk)|apply Hr]. }
  exists (tmean z A n N (fun x => alpha / (1 - f x * beta))%C), (tmean z A n N (fun x => 1 / (1 - f x * beta))%C).
  split; [apply (pdm_n_value D s A n z_tip nt r_tip eps_tip alt alpha beta); auto|]. split.
  - rewrite <- tmean_scal. apply tmean_ext. intros. unfold Cdiv. ring.
  - intros eps He. assert (HP : 0 <= / (1 - rho)) by (apply Rlt_le, Rinv_0_lt_compat; lra).
    destruct (geometric_to_0 (/ (1 - rho)) rho HP Hr eps He) as [J0 HJ]. exists J0. intros J HJJ.
    eexists. split; [apply (pdm_taylor_value D s A n z_tip nt r_tip eps_tip alt alpha beta J); auto; intros k Hk; apply (HK k Hk)|].
    eapply Rle_lt_trans; [|apply (HJ J HJJ)]. fold N z r f.
    match goal with |- Cmod (?u - ?v)%C <= _ => replace (u - v)%C with (u + -1 * v)%C by (apply C_eq; unfold Re, Im; simpl; ring) end.
    rewrite <- tmean_scal, <- tmean_plus. apply tmean_bound; [exact HN|]. intros k Hk. set (x := tip_height z A N k).
    destruct (HK' k Hk) as [_ Q]. rewrite geom_remainder by exact Q.
    match goal with |- Cmod ?w <= _ => replace w with (Cpown (f x * beta) J / (1 - f x * beta))%C by (fold (f x); unfold Cdiv; ring) end.
    rewrite Cmod_div by exact Q. rewrite Cmod_pown, Rmult_comm. unfold Rdiv.
    destruct (Cmod_1_minus _ rho (Hr' k Hk) (proj2 Hr)) as [_ B1].
    apply Rmult_le_compat.
    + apply pow_le, Cmod_ge_0.
    + apply Rlt_le, Rinv_0_lt_compat. now apply Cmod_gt_0.
    + apply pow_incr. split; [apply Cmod_ge_0|]. apply (Hr' k Hk).
    + apply Rinv_le_contravar; [lra|exact B1].
Qed.

(** C29. It does not converge to pdm.eff_pol_n itself, which is what it is
    documented to approximate: for a perfectly conducting tip of radius 1 in
    contact with permittivity 3, at harmonic 0 without tapping, it stays more
    than 10 away at every order beyond some J0. *)
Lemma C29_taylor_of_eff_pol_n_refuted_proof :
  exists (D : Defaults) (s : sample) (a : C),
  pdm_eff_pol_n D s 0 0 None None (Some 1) None None = Ok (Some a) /\
  exists J0, forall J, (J0 <= J)%nat -> exists t : C,
    pdm_eff_pol_n_taylor D s 0 0 None (Some 1) None None None (Some J) = Ok (Some t) /\ 10 < Cmod (a - t)%C.
Proof.
  exists defaults0, (stack [RtoC 1; RtoC 3] [] None). pose proof PI_RGT_0 as HP.
  assert (Hb : refl_coef_qs (stack [RtoC 1; RtoC 3] [] None) (rr 0) = Ok (Some (RtoC (1 / 2)))).
  { rewrite bulk_qs.
    - do 2 f_equal. rewrite <- RtoC_minus, <- RtoC_plus, <- RtoC_div by lra. f_equal. field.
    - apply RtoC_neq_0. lra.
    - rewrite <- RtoC_plus. apply RtoC_neq_0. lra. }
  assert (HA : forall k, (1 + tip_height 0 0 32 k) = 1) by (intros; unfold tip_height; ring).
  assert (HT : tip_alpha 1 None None (RtoC (4 * PI * 1 ^ 3))) by constructor.
  assert (F : forall k, (RtoC (4 * PI * 1 ^ 3) / RtoC (16 * PI * (1 + tip_height 0 0 32 k) ^ 3) * RtoC (1 / 2))%C = RtoC (1 / 8)).
  { intros k. rewrite HA, <- RtoC_div by (apply Rgt_not_eq; lra). rewrite <- RtoC_mult. f_equal. field. lra. }
  destruct (C29_converges_to_normalised_proof defaults0 (stack [RtoC 1; RtoC 3] [] None) 0 0 None (Some 1) None None None
    (RtoC (4 * PI * 1 ^ 3)) (RtoC (1 / 2))) as [a [c [Ha [E HC]]]].
  - exact HT.
  - exact Hb.
  - discriminate.
  - intros k Hk. cbn [given_or defaults0 d_n_trapz d_z_tip]. rewrite F, HA, Cmod_R, Rabs_pos_eq by lra. split; lra.
  - exists a. split; [exact Ha|].
    assert (HK : forall k, (k < 32)%nat -> 1 + tip_height 0 0 32 k <> 0 /\
      (1 - RtoC (4 * PI * 1 ^ 3) / RtoC (16 * PI * (1 + tip_height 0 0 32 k) ^ 3) * RtoC (1 / 2) <> 0)%C).
    { intros k Hk. rewrite F, HA, <- RtoC_minus. split; [lra|]. apply RtoC_neq_0. lra. }
    pose proof (pdm_n_value defaults0 (stack [RtoC 1; RtoC 3] [] None) 0 0 None None (Some 1) None None
      (RtoC (4 * PI * 1 ^ 3)) (RtoC (1 / 2)) HT Hb (ltac:(discriminate)) HK) as Ha'.
    pose proof (eq_trans (eq_sym Ha) Ha') as X. cbn [given_or defaults0 d_n_trapz d_z_tip] in X. cbv beta in X.
    assert (Xa : a = RtoC (32 / 7 * PI)).
    { transitivity (tmean 0 0 0 32 (fun _ => RtoC (32 / 7 * PI))).
      - transitivity (tmean 0 0 0 32 (fun x => RtoC (4 * PI * 1 ^ 3) / (1 - RtoC (4 * PI * 1 ^ 3) / RtoC (16 * PI * (1 + x) ^ 3) * RtoC (1 / 2)))%C); [clear - X; congruence|].
        apply tmean_ext. intros k Hk. rewrite F, <- RtoC_minus, <- RtoC_div by lra. f_equal. field.
      - transitivity (RtoC (32 / 7 * PI) * 1)%C; [|ring].
        transitivity (tmean 0 0 0 32 (fun _ => RtoC (32 / 7 * PI) * 1)%C); [apply tmean_ext; intros; ring|].
        rewrite (tmean_scal 0 0 0 32 (RtoC (32 / 7 * PI)) (fun _ => RtoC 1)), tmean_one; [reflexivity|discriminate|now left]. }
    assert (Xc : c = RtoC (8 / 7)).
    { assert (HN : RtoC (4 * PI * 1 ^ 3) <> RtoC 0) by (apply RtoC_neq_0; lra).
      replace c with (RtoC (4 * PI * 1 ^ 3) * c / RtoC (4 * PI * 1 ^ 3))%C by (field; exact HN).
      rewrite <- E, Xa, <- RtoC_div by lra. f_equal. field. lra. }
    destruct (HC (1 / 10)) as [J0 H0]; [lra|]. exists J0. intros J HJ. destruct (H0 J HJ) as [t [Ht Hd]].
    exists t. split; [exact Ht|].
    assert (Hpi : 3 < PI) by (pose proof PI2_3_2; lra).
    assert (T : Cmod (a - c)%C <= Cmod (a - t)%C + Cmod (c - t)%C).
    { replace (a - c)%C with (a - t + - (c - t))%C by ring. eapply Rle_trans; [apply Cmod_triangle|]. rewrite Cmod_opp. lra. }
    assert (V : Cmod (a - c)%C = 32 / 7 * PI - 8 / 7) by (rewrite Xa, Xc, <- RtoC_minus, Cmod_R, Rabs_pos_eq by lra; reflexivity).
    lra.
Qed.
(** C29. Example: the hypotheses of the two positive statements hold for the
    default tip over permittivity 3, tapping by 30 nm *)
Lemma C29_example_proof :
  let r := d_r_tip defaults0 in let alpha := RtoC (4 * PI * r ^ 3) in
  forall k, let x := tip_height 0 (30 / 10 ^ 9) 32 k in
  r + x <> 0 /\ Cmod (alpha / RtoC (16 * PI * (r + x) ^ 3) * RtoC (1 / 2))%C < 1.
Proof.
  intros r alpha k x. pose proof PI_RGT_0 as HP.
  assert (Hr : 0 < r) by (unfold r; cbn [d_r_tip defaults0]; lra).
  assert (Hx : 0 <= x).
  { unfold x, tip_height. pose proof (COS_bound (2 * PI * INR k / INR 32)).
    assert (0 <= 30 / 10 ^ 9 * (1 - cos (2 * PI * INR k / INR 32))) by (apply Rmult_le_pos; lra). lra. }
  assert (Hx3 : 0 < (r + x) ^ 3) by (apply pow_lt; lra).
  assert (Hr3 : r ^ 3 <= (r + x) ^ 3) by (apply pow_incr; lra).
  assert (Hr30 : 0 < r ^ 3) by (apply pow_lt; lra).
  split; [lra|]. unfold alpha.
  assert (Hd : 0 < 16 * PI * (r + x) ^ 3) by (apply Rmult_lt_0_compat; lra).
  assert (Hn : 0 < 4 * PI * r ^ 3) by (apply Rmult_lt_0_compat; lra).
  rewrite <- RtoC_div by lra. rewrite <- RtoC_mult, Cmod_R, Rabs_pos_eq.
  - apply (Rmult_lt_reg_r (16 * PI * (r + x) ^ 3)); [exact Hd|].
    replace (4 * PI * r ^ 3 / (16 * PI * (r + x) ^ 3) * (1 / 2) * (16 * PI * (r + x) ^ 3)) with (2 * (PI * r ^ 3)) by (field; lra).
    assert (PI * r ^ 3 <= PI * (r + x) ^ 3) by (apply Rmult_le_compat_l; lra).
    assert (0 < PI * (r + x) ^ 3) by (apply Rmult_lt_0_compat; lra). lra.
  - apply Rmult_le_pos; [|lra]. apply Rlt_le, Rdiv_lt_0_compat; assumption.
Qed.
(** C28. Example: a tip with r = L = 1, g = 1, tapping by 1/8 in contact with
    permittivity 3 (beta = 1/2) meets the hypotheses *)
Lemma C28_example_proof :
  forall k, let x := tip_height 0 (1 / 8) 32 k in
  fdm_regular x (131 / 100 * 1 / (1 + 2 * 1)) 1 1 /\ fdm_regular x (5 / 10) 1 1 /\
  Cmod ((RtoC 3 - RtoC 1) / (RtoC 3 + RtoC 1) * fdm_f x (5 / 10) 1 1 (RtoC 1))%C < 1.
Proof.
  intros k x.
  assert (Hx : 0 <= x <= 1 / 4).
  { unfold x, tip_height. pose proof (COS_bound (2 * PI * INR k / INR 32)). lra. }
  split; [unfold fdm_regular; lra|]. split; [unfold fdm_regular; lra|].
  unfold fdm_f. rewrite <- RtoC_minus, <- RtoC_plus, <- RtoC_div, <- RtoC_minus, <- RtoC_mult, <- RtoC_mult, Cmod_R by lra.
  assert (L4 : 0 < ln (4 * 1 / 1)) by (rewrite <- ln_1; apply ln_increasing; lra).
  assert (Hq : 1 <= 4 * 1 / (1 + 4 * x + 2 * 1 * (5 / 10)) <= 4 * 1 / 1).
  { split.
    - apply Rle_div_r; lra.
    - apply Rle_div_l; lra. }
  set (Q := 4 * 1 / (1 + 4 * x + 2 * 1 * (5 / 10))) in *.
  assert (Hl0 : 0 <= ln Q) by (rewrite <- ln_1; apply ln_le; lra).
  assert (Hl1 : ln Q <= ln (4 * 1 / 1)) by (apply ln_le; lra).
  set (l4 := ln (4 * 1 / 1)) in *.
  assert (Hd : 0 <= ln Q / l4 <= 1).
  { split; [apply Rmult_le_pos; [exact Hl0|]; apply Rlt_le, Rinv_0_lt_compat; exact L4|]. apply Rle_div_l; lra. }
  set (w := ln Q / l4) in *.
  assert (Hc : 0 <= 1 - (1 + 2 * x + 1 * (5 / 10)) / (2 * 1) <= 1) by lra.
  set (c := 1 - (1 + 2 * x + 1 * (5 / 10)) / (2 * 1)) in *.
  assert (0 <= c * w <= 1) by (split; nra). rewrite Rabs_pos_eq; lra.
Qed.
