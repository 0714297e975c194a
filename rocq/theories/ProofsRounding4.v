(** * Proofs: the far-field coefficients in rounding arithmetic (C77) *)
From Coq Require Import String Reals Lra Lia ZArith List Bool Permutation.
From Coquelicot Require Import Rcomplements Complex.
From Verif Require Import Num NumLemmas ModelBase ModelSample StackLemmas Spec SpecRound ModelRound ModelRound2 ModelRound3
  RoundLemmas RoundLemmas2 RoundTends RoundTends2 RoundTends3 SpecAccurate SpecLightLine ProofsRounding ProofsRounding2.
Import ListNotations.
Open Scope R_scope.

Lemma resolve_nu_spec s nu k : resolve_nu s nu = Ok k -> wavenumber s nu k.
Proof.
  unfold resolve_nu, wavenumber. destruct nu as [v|]; [intros H; injection H as <-; now left|]. intros H. right. split; [reflexivity|].
  destruct (nu_vac s) as [v|]; [injection H as <-; now left|]. destruct (multilayer s); [discriminate|]. injection H as <-. now right.
Qed.
Lemma resolve_q_spec k q th q0 : resolve_q k q th = Ok q0 -> momentum k q th q0.
Proof.
  unfold resolve_q, momentum. destruct th as [a|], q as [v|]; intros H; try discriminate; injection H as <-.
  - right. right. exists a. auto.
  - now left.
  - right. now left.
Qed.
Lemma free_nu_z (G : gauge) s q th nu : light_line_free s q th nu -> @nu_z_ok G s q th nu.
Proof.
  intros HL k q0 x Hk Hq _ Hx e He. apply T_nu_z; [exact Hx|]. intros e' ->. intros Z.
  apply (HL k q0 e' (resolve_nu_spec _ _ _ Hk) (resolve_q_spec _ _ _ _ Hq) He).
  replace (e' * RtoC (k ^ 2))%C with ((e' * RtoC (k ^ 2) - RtoC (q0 ^ 2)) + RtoC (q0 ^ 2))%C by ring. rewrite Z. ring.
Qed.

(** C77. Away from the light lines refl_coef raises the same exceptions in rounding
    arithmetic as in exact arithmetic and has an error of order u, for every
    stack, both polarizations, every angle or momentum, absorbing, metallic and
    evanescent layers included. *)
Lemma C77_refl_coef_proof : forall s q theta_in nu pol, light_line_free s q theta_in nu ->
  tracks (refl_coef s q theta_in nu pol) (fun m => k_refl_coef m s q theta_in nu pol).
Proof. intros. apply rest_tracks, T_refl_coef. now apply free_nu_z. Qed.
(** C77. trans_coef: likewise. *)
Lemma C77_trans_coef_proof : forall s q theta_in nu pol, light_line_free s q theta_in nu ->
  tracks (trans_coef s q theta_in nu pol) (fun m => k_trans_coef m s q theta_in nu pol).
Proof. intros. apply rest_tracks, T_trans_coef. now apply free_nu_z. Qed.

(** ** at the light line *)
Lemma Cmod_Csqrt z : Cmod (Csqrt z) = sqrt (Cmod z).
Proof.
  rewrite <- (Csqrt_sqr z) at 2. rewrite Cmod_mult. symmetry. apply sqrt_square, Cmod_ge_0.
Qed.
Lemma rounding_weaken u v m : 0 <= u <= v -> rounds u m -> rounds v m.
Proof.
  assert (W : forall x y, 0 <= u <= v -> near u x y -> near v x y).
  { intros x y H Q. unfold near in *. eapply Rle_trans; [exact Q|]. apply Rmult_le_compat_r; [apply Rabs_pos|lra]. }
  intros H [H1 H2 H3 H4 H5 H6 H7 H8 H9 H10 H11 H12]. constructor; intros; apply W; auto.
Qed.
Lemma halved_nu_z s q th nu : @nu_z_ok halved s q th nu.
Proof.
  intros k q0 x Hk Hq Ex Hx e He. destruct e as [e|]; [|apply ct_None].
  destruct (Ceq_dec (e * RtoC (k ^ 2) - RtoC (q0 ^ 2))%C (RtoC 0)) as [Z|N].
  2: { apply T_nu_z; [exact Hx|]. intros e' E. injection E as <-. exact N. }
  pose proof (@T_resolve_q plain k q th) as HQ. rewrite Hq in HQ. cbn [rest] in HQ. destruct HQ as (y & Ey & HQ).
  assert (HR : @ct plain (Some e * ofR (rr k ^ 2)%rv - ofR (rr q0 ^ 2)%rv)%cv
                  (fun m : machine => ksub m (kmul m e (RtoC (a_pow m k 2))) (RtoC (a_pow m (y m) 2)))).
  { apply T_ksub; [apply T_kmul; [apply ct_const|]|]; apply ct_ofR, T_pow; [apply rt_const|exact HQ]. }
  cbn [cmul csub ofR rpow rr olift1 olift2] in HR. rewrite Z in HR. destruct (HR _ eq_refl) as (K & HK & u1 & H1 & B).
  intros d Hd. unfold nu_z_of in Hd. cbn [cmul csub ofR rpow rr olift1 olift2 csqrt] in Hd. rewrite Z in Hd.
  assert (E0 : Csqrt (RtoC 0) = RtoC 0).
  { pose proof (Csqrt_pos 0 ltac:(lra)) as Q. replace (0 ^ 2) with 0 in Q by ring. exact Q. }
  injection Hd as <-. rewrite E0. exists (2 * sqrt K). pose proof (sqrt_pos K) as PK. split; [lra|].
  exists (Rmin u1 (1 / 100)). split; [apply Rmin_pos; lra|]. intros u m Hu [Hm Ho] Hf. unfold fine, halved in Hf.
  pose proof (Rmin_l u1 (1 / 100)). pose proof (Rmin_r u1 (1 / 100)). assert (U2 : 0 <= u ^ 2 <= u) by nra.
  assert (Exy : x m = y m) by (pose proof (Ex m) as X; rewrite (Ey m) in X; now injection X).
  specialize (B (u ^ 2) m ltac:(lra) (conj Hf Ho) I). rewrite <- Exy in B. cbn [val0]. unfold k_nu_z.
  set (w := ksub m (kmul m e (RtoC (a_pow m k 2))) (RtoC (a_pow m (x m) 2))) in *.
  rewrite Rabs_pos_eq in B |- * by apply Cmod_ge_0. replace (w - RtoC 0)%C with w in B by ring.
  replace (k_csqrt m w - RtoC 0)%C with (k_csqrt m w) by ring.
  pose proof (cnear_mod _ _ _ (kcsqrt_near (u ^ 2) m ltac:(lra) Hf w)) as Q. rewrite Cmod_Csqrt in Q.
  assert (SB : sqrt (Cmod w) <= sqrt K * u).
  { replace (sqrt K * u) with (sqrt (K * u ^ 2)).
    - apply sqrt_le_1; [apply Cmod_ge_0|apply Rmult_le_pos; lra|exact B].
    - rewrite sqrt_mult by lra. f_equal. apply sqrt_pow2. lra. }
  eapply Rle_trans; [exact Q|]. pose proof (sqrt_pos (Cmod w)). assert (1 + 7 * u ^ 2 <= 2) by lra.
  apply Rle_trans with (2 * sqrt (Cmod w)); [apply Rmult_le_compat_r; lra|]. lra.
Qed.
Lemma rest_half r0 r : rest (@ct halved) r0 r -> half_tracks r0 r.
Proof.
  intros H. destruct r0 as [v|e]; cbn [rest] in H.
  - destruct H as (x & E & H). split; [intros e X; discriminate|]. split.
    + intros v' _ m. exists (x m). apply E.
    + intros d Hd. injection Hd as Hd. destruct (H d Hd) as (K & HK & u1 & H1 & Q). exists K, (Rmin 1 (u1 ^ 2)). split; [exact HK|].
      assert (P : 0 < u1 ^ 2) by (apply pow_lt; exact H1). split; [apply Rmin_pos; lra|]. intros u m Hu [Hm Ho]. exists (x m). split; [apply E|].
      pose proof (Rmin_l 1 (u1 ^ 2)). pose proof (Rmin_r 1 (u1 ^ 2)). pose proof (sqrt_pos u) as Ps.
      assert (E2 : sqrt u ^ 2 = u) by (apply pow2_sqrt; lra).
      assert (U1 : sqrt u <= u1).
      { rewrite <- (sqrt_pow2 u1) by lra. apply sqrt_le_1; lra. }
      assert (U2 : u <= sqrt u).
      { assert (sqrt u <= 1) by (rewrite <- sqrt_1; apply sqrt_le_1; lra). nra. }
      assert (R1 : rounding (sqrt u) m) by (split; [apply (rounding_weaken u); [lra|exact Hm]|exact Ho]).
      specialize (Q (sqrt u) m ltac:(lra) R1). unfold fine, halved in Q. rewrite E2 in Q. specialize (Q Hm).
      rewrite Rabs_pos_eq in Q by apply Cmod_ge_0. exact Q.
  - split; [intros e' X m; injection X as <-; apply H|]. split; intros ? X; discriminate.
Qed.
(** C77. In every case, light lines included, half of the digits survive. *)
Lemma C77_half_digits_proof : forall s q theta_in nu pol,
  half_tracks (refl_coef s q theta_in nu pol) (fun m => k_refl_coef m s q theta_in nu pol) /\
  half_tracks (trans_coef s q theta_in nu pol) (fun m => k_trans_coef m s q theta_in nu pol).
Proof.
  intros. split; apply rest_half; [apply T_refl_coef|apply T_trans_coef]; apply halved_nu_z.
Qed.

(** exact arithmetic but for the square of 2, which is too large by 1 + u *)
Definition big_pow (u : R) : machine :=
  Mach (Ar Rplus Rminus Rmult Rdiv (fun x n => if Req_EM_T x 2 then x ^ n * (1 + u) else x ^ n) sin cos exp ln (fun x y => Cmod (x, y)) sqrt (fun x => x)) (fun N => left_order (Nat.pred N)).
Lemma big_pow_rounding u : 0 <= u -> rounding u (big_pow u).
Proof.
  intros Hu. split.
  - constructor; intros; cbn [big_pow m_arith a_add a_sub a_mul a_div a_pow a_sin a_cos a_exp a_log a_hypot a_sqrt a_lit]; try (apply near_refl; exact Hu).
    destruct (Req_EM_T x 2); [|apply near_refl; exact Hu].
    unfold near. replace (x ^ n * (1 + u) - x ^ n) with (x ^ n * u) by ring. rewrite Rabs_mult, (Rabs_pos_eq u) by exact Hu. lra.
  - intros N HN. unfold big_pow. cbn [m_order]. pose proof (left_order_adds_up (Nat.pred N)) as H. now rewrite Nat.succ_pred in H.
Qed.
Lemma cnear_0 x y : cnear 0 x y -> y = x.
Proof.
  unfold cnear. rewrite Rmult_0_l. intros H. pose proof (Cmod_ge_0 (y - x)%C) as P.
  assert (Z : (y - x)%C = RtoC 0) by (apply Cmod_eq_0; lra). replace y with ((y - x) + x)%C by ring. rewrite Z. ring.
Qed.
Lemma big_pow_kdiv u x y : y <> RtoC 0 -> kdiv (big_pow u) x y = (x / y)%C.
Proof.
  intros Hy. change (kdiv (big_pow u) x y) with (kdiv (big_pow 0) x y). apply cnear_0.
  replace 0 with (13 * 0) at 1 by ring. apply kdiv_near; [lra|lra|apply (proj1 (big_pow_rounding 0 ltac:(lra)))|exact Hy].
Qed.
Lemma big_pow_csqrt u z : k_csqrt (big_pow u) z = Csqrt z.
Proof.
  change (k_csqrt (big_pow u) z) with (k_csqrt (big_pow 0) z). apply cnear_0.
  replace 0 with (7 * 0) at 1 by ring. apply kcsqrt_near; [lra|apply (proj1 (big_pow_rounding 0 ltac:(lra)))].
Qed.
Lemma Csqrt_real r : 0 <= r -> Csqrt (RtoC r) = RtoC (sqrt r).
Proof. intros H. rewrite <- (Csqrt_pos (sqrt r)) by apply sqrt_pos. f_equal. f_equal. symmetry. now apply pow2_sqrt. Qed.
(** from the vacuum into a layer of permittivity 1/4, at the critical angle *)
Definition edge : sample := stack [RtoC 1; RtoC (1 / 4)] [] None.
Lemma edge_run u : 0 < u -> let F := sqrt u / sqrt (3 + 4 * u) in
  k_refl_coef (big_pow u) edge (Some 1) None (Some 2) "s" = Ok (RtoC ((1 - F) / (1 + F))).
Proof.
  intros Hu F.
  assert (N : forall e, k_nu_z (big_pow u) 2 1 (RtoC e) = Csqrt (RtoC (e * (4 * (1 + u)) - 1))).
  { intros e. unfold k_nu_z. rewrite big_pow_csqrt. f_equal. unfold ksub, kmul, RtoC, Re, Im. cbn [fst snd big_pow m_arith a_add a_sub a_mul a_pow].
    destruct (Req_EM_T 2 2) as [_|X]; [|now exfalso]. destruct (Req_EM_T 1 2) as [X|_]; [exfalso; lra|].
    apply injective_projections; cbn [fst snd]; simpl; ring. }
  assert (P3 : 0 < sqrt (3 + 4 * u)) by (apply sqrt_lt_R0; lra). assert (Pu : 0 < sqrt u) by (now apply sqrt_lt_R0).
  assert (PF : 0 < F) by (now apply Rdiv_lt_0_compat).
  set (m := big_pow u).
  change (k_refl_coef m edge (Some 1) None (Some 2) "s") with
    (Ok (kdiv m (k10 (k_trans_matrix m (kdiv m (k_nu_z m 2 1 (RtoC (1 / 4))) (k_nu_z m 2 1 (RtoC 1))))) (k00 (k_trans_matrix m (kdiv m (k_nu_z m 2 1 (RtoC (1 / 4))) (k_nu_z m 2 1 (RtoC 1))))))).
  unfold m. rewrite !N. replace (1 / 4 * (4 * (1 + u)) - 1) with u by field. replace (1 * (4 * (1 + u)) - 1) with (3 + 4 * u) by ring.
  rewrite !Csqrt_real by lra. rewrite (big_pow_kdiv u (RtoC (sqrt u))) by (apply RtoC_neq_0; lra). rewrite <- RtoC_div by lra. fold F.
  unfold k_trans_matrix. cbn [k10 k00].
  assert (X : forall c, kadd (big_pow u) (RtoC 1) (kmul (big_pow u) (RtoC c) (RtoC F)) = RtoC (1 + c * F)).
  { intros c. unfold kadd, kmul, RtoC, Re, Im. cbn [fst snd big_pow m_arith a_add a_sub a_mul]. apply injective_projections; cbn [fst snd]; ring. }
  rewrite !X. rewrite !(big_pow_kdiv u _ (RtoC 2)) by exact C2_neq_0. rewrite <- !RtoC_div by lra.
  rewrite big_pow_kdiv by (apply RtoC_neq_0; lra). rewrite <- RtoC_div by lra. do 2 f_equal. field. lra.
Qed.
Lemma edge_exact : refl_coef edge (Some 1) None (Some 2) "s" = Ok (Some (RtoC 1)).
Proof.
  assert (N : forall e, nu_z_of 2 1 (Some (RtoC e)) = Some (Csqrt (RtoC (e * 4 - 1)))).
  { intros e. unfold nu_z_of. cbn [cmul csub ofR rpow rr olift1 olift2 csqrt]. do 2 f_equal.
    rewrite <- RtoC_mult, <- RtoC_minus. f_equal. simpl. ring. }
  unfold refl_coef.
  change (transfer_matrix edge (Some 1) None (Some 2) "s") with
    (Ok (trans_matrix (nu_z_of 2 1 (Some (RtoC (1 / 4))) / nu_z_of 2 1 (Some (RtoC 1)))%cv)).
  cbn [rbind]. rewrite !N. replace (1 / 4 * 4 - 1) with 0 by field. replace (1 * 4 - 1) with 3 by ring. rewrite !Csqrt_real by lra.
  assert (P3 : 0 < sqrt 3) by (apply sqrt_lt_R0; lra). rewrite sqrt_0.
  rewrite cdiv_ok by (apply RtoC_neq_0; lra). rewrite <- RtoC_div by lra. replace (0 / sqrt 3) with 0 by (field; lra).
  unfold trans_matrix, rc. cbn [m10 m00 cmul cadd olift2]. rewrite !Cmult_0_r, !Cplus_0_r.
  rewrite (cdiv_ok (RtoC 1) (RtoC 2)) by exact C2_neq_0. rewrite <- RtoC_div by lra. rewrite cdiv_ok by (apply RtoC_neq_0; lra).
  rewrite <- RtoC_div by lra. do 3 f_equal. field.
Qed.
(** C77. At the light line (here: a lossless interface at the critical angle) no more than half of the
    digits survive: the error is not of order u. *)
Lemma C77_light_line_refuted_proof :
  exists s q nu d, refl_coef s (Some q) None (Some nu) "s" = Ok (Some d) /\
    ~ accurate (fun m => k_refl_coef m s (Some q) None (Some nu) "s") d.
Proof.
  exists edge, 1, 2, (RtoC 1). split; [exact edge_exact|]. intros (K & u0 & HK & H0 & Q).
  set (c := / (4 * (K + 1))). assert (Pc : 0 < c) by (apply Rinv_0_lt_compat; lra).
  assert (Pc2 : 0 < c ^ 2) by (now apply pow_lt).
  set (u := Rmin u0 (Rmin (1 / 4) (c ^ 2))).
  assert (Hu : 0 < u) by (unfold u; repeat apply Rmin_pos; lra).
  assert (U0 : u <= u0) by apply Rmin_l. assert (U1 : u <= 1 / 4) by (eapply Rle_trans; [apply Rmin_r|apply Rmin_l]).
  assert (U2 : u <= c ^ 2) by (eapply Rle_trans; [apply Rmin_r|apply Rmin_r]).
  destruct (Q u (big_pow u) ltac:(lra) (big_pow_rounding u ltac:(lra))) as (x & E & B). clear Q.
  rewrite (edge_run u Hu) in E. injection E as <-. set (F := sqrt u / sqrt (3 + 4 * u)) in *.
  assert (P3 : 0 < sqrt (3 + 4 * u)) by (apply sqrt_lt_R0; lra). assert (Pu : 0 < sqrt u) by (now apply sqrt_lt_R0).
  assert (S3 : sqrt (3 + 4 * u) <= 2) by (rewrite <- (sqrt_pow2 2) by lra; apply sqrt_le_1; lra).
  assert (PF : 0 < F) by (now apply Rdiv_lt_0_compat).
  assert (S1 : sqrt u <= 1 / 2) by (rewrite <- (sqrt_pow2 (1 / 2)) by lra; apply sqrt_le_1; lra).
  assert (S3' : 1 <= sqrt (3 + 4 * u)) by (rewrite <- sqrt_1; apply sqrt_le_1; lra).
  assert (F1 : F <= 1) by (unfold F; apply Rle_div_l; lra).
  assert (F2 : sqrt u / 2 <= F) by (unfold F, Rdiv; apply Rmult_le_compat_l; [lra|]; apply Rinv_le_contravar; lra).
  rewrite <- RtoC_minus, Cmod_R in B. replace ((1 - F) / (1 + F) - 1) with (- (2 * F / (1 + F))) in B by (field; lra).
  assert (PF2 : 0 < 2 * F / (1 + F)) by (apply Rdiv_lt_0_compat; lra).
  rewrite Rabs_Ropp, Rabs_pos_eq in B by lra.
  assert (FF : F * F <= F * 1) by (apply Rmult_le_compat_l; lra).
  assert (F3 : F <= 2 * F / (1 + F)) by (apply (Rmult_le_reg_r (1 + F)); [lra|]; replace (2 * F / (1 + F) * (1 + F)) with (2 * F) by (field; lra); lra).
  assert (Su : sqrt u <= c) by (rewrite <- (sqrt_pow2 c) by lra; apply sqrt_le_1; lra).
  assert (Eu : u = sqrt u * sqrt u) by (symmetry; apply sqrt_sqrt; lra).
  assert (X : sqrt u / 2 <= K * (sqrt u * sqrt u)) by (rewrite <- Eu; lra).
  assert (X2 : 1 / 2 <= K * sqrt u) by (apply (Rmult_le_reg_r (sqrt u)); [exact Pu|lra]).
  assert (X3 : K * sqrt u <= K * c) by (now apply Rmult_le_compat_l).
  assert (X4 : K * c <= 1 / 4) by (unfold c; apply (Rmult_le_reg_r (4 * (K + 1))); [lra|]; rewrite Rmult_assoc, Rinv_l by lra; lra). lra.
Qed.

(** C77. The hypotheses hold: a metal film on a lossy substrate, oblique incidence *)
Lemma C77_free_example_proof : let s := stack [RtoC 1; (-10, 1); (4, 1)] [1 / 10] (Some 1) in
  light_line_free s None (Some (PI / 6)) None /\ rounding (/ 2 ^ 53) (digits 53).
Proof.
  cbv zeta. split; [|apply digits_rounding]. intros k q0 e Hk Hq He E.
  assert (k = 1) as -> by (destruct Hk as [H|[_ [H|[H _]]]]; [discriminate|cbn in H; now injection H|discriminate]).
  destruct Hq as [[H _]|[[H _]|(a & Ha & _ & ->)]]; [discriminate|discriminate|]. injection Ha as <-.
  assert (S : sin (Rabs (PI / 6)) = 1 / 2) by (rewrite Rabs_pos_eq by (pose proof PI_RGT_0; lra); apply sin_PI6). rewrite S in E.
  cbn [stack eps_stack map In] in He.
  assert (IM : forall a b : R, (((a, b) : C) * RtoC (1 ^ 2))%C = RtoC ((1 * (1 / 2)) ^ 2) -> a = 1 / 4 /\ b = 0).
  { intros a b H. unfold Cmult, RtoC in H. cbn [fst snd] in H. injection H as H1 H2. lra. }
  destruct He as [H|[H|[H|[]]]]; injection H as <-; [change (RtoC 1) with ((1, 0) : C) in E|..]; apply IM in E; lra.
Qed.
