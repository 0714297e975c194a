(** * The root-finding inverses (C30, C31, C32) *)
From Coq Require Import String Reals Lra Lia ZArith List Bool Permutation Sorted.
From Coquelicot Require Import Rcomplements Complex.
From Verif Require Import Num NumLemmas ModelBase ModelSample ModelTip Spec NArr SpecArr NArrLemmas ModelObj
  ModelArr SpecObj ModelArrTip ModelInv SpecPoly SpecInv FTA ArrSample ProofsArr ProofsArr2 ProofsArrTip
  ProofsArrTip2 ProofsArrTip3 ProofsArrTip4 InvLemmas ProofsInv ProofsInv2 ProofsInv3.
Import ListNotations.
Open Scope nat_scope.

(** ** Evaluating the Taylor polynomial *)
Lemma cpown_Some : forall b j, cpown (Some b) j = Some (Cpown b j).
Proof. reflexivity. Qed.
Lemma sum_peval : forall (f : nat -> CV) b c k,
  (forall j, j < length c -> f (k + j) = Some (nth j c (RtoC 0))) ->
  csum (map (fun j => (f j * cpown (Some b) j)%cv) (seq k (length c))) = Some (Cpown b k * peval c b)%C.
Proof.
  intros f b c. induction c as [|a c IH]; intros k H; cbn [length seq map csum fold_right peval].
  - change (Some (RtoC 0) = Some (Cpown b k * RtoC 0)%C). f_equal. ring.
  - unfold csum in IH |- *. cbn [map fold_right]. rewrite (IH (S k)).
    + rewrite cpown_Some. pose proof (H 0 ltac:(cbn; lia)) as H0. rewrite Nat.add_0_r in H0. rewrite H0.
      cbn [nth cmul cadd olift2]. f_equal. cbn [Cpown]. ring.
    + intros j Hj. specialize (H (S j) ltac:(cbn; lia)). rewrite Nat.add_succ_r in H. exact H.
Qed.
Lemma taylor_value : forall (f : nat -> CV) b c nt, length c = nt ->
  (forall j, j < nt -> f j = Some (nth j c (RtoC 0))) ->
  csum (map (fun j => (f j * cpown (Some b) j)%cv) (seq 0 nt)) = Some (peval c b).
Proof.
  intros f b c nt <- H. rewrite (sum_peval f b c 0) by exact H. f_equal. cbn [Cpown]. ring.
Qed.
Lemma fdm_taylor_bulk : forall lag D s A n z r L g d0 d1 da n_lag nt ntay b, multilayer s = false ->
  refl_coef_qs s (rr 0) = Ok (Some b) ->
  fdm_eff_pol_n_taylor lag D s A n z r L g d0 d1 da n_lag None nt ntay
  = Ok (csum (map (fun j => (match fdm_defaults D r L g d0 d1 None with
         | (r, L, g, d0, d1, _) => fdm_coef D (dflt (d_z_tip D) z) A n (rr r) (rr L) (Some g) d0 (rr d1) nt j end
         * cpown (Some b) j)%cv) (seq 0 (dflt (d_n_tayl D) ntay)))).
Proof.
  intros lag D s A n z r L g d0 d1 da n_lag nt ntay b Hm Hb. unfold fdm_eff_pol_n_taylor. cbn zeta.
  unfold fdm_defaults. cbn zeta. rewrite Hm. cbn [String.eqb Ascii.eqb Bool.eqb]. rewrite Hb. cbn [rbind].
  erewrite mapM_pure; [cbn [rbind]; reflexivity|]. intro j. cbn beta.
  rewrite (proj1 (fdm_coef_ok _ _ _ _ _ _ _ _ _ _ _)). reflexivity.
Qed.
Lemma pdm_taylor_any : forall D s A n z r e a nt ntay b r' a',
  pdm_defaults D r e a = Ok (r', a') -> refl_coef_qs s (rr 0) = Ok (Some b) ->
  pdm_eff_pol_n_taylor D s A n z r e a nt ntay
  = Ok (csum (map (fun j => (pdm_coef D (dflt (d_z_tip D) z) A n (rr r') a' nt j * cpown (Some b) j)%cv)
               (seq 0 (dflt (d_n_tayl D) ntay)))).
Proof.
  intros D s A n z r e a nt ntay b r' a' Hd Hb. unfold pdm_eff_pol_n_taylor. cbn zeta. rewrite Hd. cbn [rbind fst snd].
  rewrite Hb. cbn [rbind].
  erewrite mapM_pure; [cbn [rbind]; reflexivity|]. intro j. cbn beta.
  rewrite (proj1 (pdm_coef_ok _ _ _ _ _ _ _ _)). reflexivity.
Qed.

(** ** Shapes *)
Lemma env_ok : forall D env ss, env_fits env ss -> forall s, bshapes ss = Some s -> fits (shp (darr (d_eps_env D) env)) s.
Proof.
  intros D [env|] ss H s E; cbn [darr].
  - apply (H s). + apply bshapes_joint, E. + left. reflexivity.
  - split; [cbn; lia|]. intros k. left. destruct k; reflexivity.
Qed.
Lemma env_entry : forall D env i, entry (darr (d_eps_env D) env) i = given_or (d_eps_env D) (at_index env i).
Proof. intros D [env|] i; reflexivity. Qed.
Lemma unmasked_le : forall r i, length (unmasked r i) <= n_rows r.
Proof.
  intros r i. unfold unmasked. rewrite <- (seq_length (n_rows r) 0) at 2. generalize (seq 0 (n_rows r)).
  induction l as [|k l IH]; cbn [flat_map length]; [lia|]. rewrite app_length.
  destruct (at_ (snd r) (i ++ [k])); cbn [length]; lia.
Qed.
Lemma unmasked_all : forall r i, length (unmasked r i) = n_rows r -> unmasked r i = entries r i.
Proof.
  intros r i H. unfold unmasked, entries in *. rewrite <- (seq_length (n_rows r) 0) in H at 2. revert H.
  generalize (seq 0 (n_rows r)). induction l as [|k l IH]; cbn [flat_map length map]; [reflexivity|]. rewrite app_length.
  assert (HL : length (flat_map (fun k => if at_ (snd r) (i ++ [k]) then [] else [at_ (fst r) (i ++ [k])]) l) <= length l).
  { clear IH. induction l as [|k' l IH]; cbn [flat_map length]; [lia|]. rewrite app_length.
    destruct (at_ (snd r) (i ++ [k'])); cbn [length]; lia. }
  destruct (at_ (snd r) (i ++ [k])); cbn [length app]; intro H; [lia|]. rewrite IH by lia. reflexivity.
Qed.
Lemma index_nil : forall i, index_of [] i -> i = [].
Proof. intros [|a i] [H _]; [reflexivity|discriminate]. Qed.

(** ** C30 *)
(** Every unmasked entry is a finite number that satisfies the requested
    restrictions, and every bulk sample with this reflection coefficient has
    the requested effective polarisability (in the Taylor approximation). *)
Lemma C30_fdm_sound_proof : forall eig sb sr lag D alpha A n z r L g d_Q0 d_Q1 n_trapz n_tayl thr ri ra env result,
  library eig sb sr -> env_fits env (fdm_inverse_operands alpha A n z r L g d_Q0 d_Q1) ->
  fdm_refl_coef_qs_from_eff_pol_n eig sb sr D alpha A n z r L g d_Q0 d_Q1 n_trapz n_tayl thr ri ra env = Ok result ->
  forall i v, index_of (elements result) i -> In v (unmasked result i) ->
  exists b, v = Some b /\
    admissible (given_or (d_beta_threshold D) thr) ri ra (given_or (d_eps_env D) (at_index env i)) b /\
    forall s d_Qa n_lag, multilayer s = false -> refl_coef_qs s (rr 0) = Ok (Some b) ->
      fdm_eff_pol_n_taylor lag D s (entry A i) (entry n i) (at_index z i) (at_index r i) (at_index L i) (at_index g i)
        (at_index d_Q0 i) (at_index d_Q1 i) d_Qa n_lag None n_trapz n_tayl = Ok (entry alpha i).
Proof.
  intros eig sb sr lag D alpha A n z r L g d0 d1 nt ntay thr ri ra env result LIB HE H i v Hi Hv.
  destruct (fdm_inversion eig sb sr D alpha A n z r L g d0 d1 nt ntay thr ri ra env) as (OFF & EQ & HO).
  rewrite EQ in H.
  destruct (inversion_sound eig sb sr LIB _ _ _ _ _ HO _ _ _ _ _ H (env_ok _ _ _ HE) i v Hi Hv)
    as (b & -> & Ha & c & al & Lc & Eal & Hc & Hp).
  exists b. split; [reflexivity|]. split; [rewrite <- env_entry; exact Ha|].
  intros s da n_lag Hm Hb. rewrite (fdm_taylor_bulk _ _ _ _ _ _ _ _ _ _ _ _ _ _ _ _ Hm Hb).
  rewrite Eal, <- Hp. f_equal. apply taylor_value; [exact Lc|exact Hc].
Qed.
(** The same for the point dipole model. *)
Lemma C30_pdm_sound_proof : forall eig sb sr D alpha A n z r eps_tip alpha_tip n_trapz n_tayl thr ri ra env result,
  library eig sb sr -> env_fits env (pdm_inverse_operands alpha A n z r eps_tip alpha_tip) ->
  pdm_refl_coef_qs_from_eff_pol_n eig sb sr D alpha A n z r eps_tip alpha_tip n_trapz n_tayl thr ri ra env = Ok result ->
  forall i v, index_of (elements result) i -> In v (unmasked result i) ->
  exists b, v = Some b /\
    admissible (given_or (d_beta_threshold D) thr) ri ra (given_or (d_eps_env D) (at_index env i)) b /\
    forall s, refl_coef_qs s (rr 0) = Ok (Some b) ->
      pdm_eff_pol_n_taylor D s (entry A i) (entry n i) (at_index z i) (at_index r i) (at_index eps_tip i)
        (at_index alpha_tip i) n_trapz n_tayl = Ok (entry alpha i).
Proof.
  intros eig sb sr D alpha A n z r e a nt ntay thr ri ra env result LIB HE H i v Hi Hv.
  assert (Hea : e = None \/ a = None).
  { destruct e; [|auto]. destruct a; [|auto]. exfalso. cbn in H. discriminate. }
  destruct (pdm_inversion eig sb sr D alpha A n z r e a nt ntay thr ri ra env Hea) as (OFF & EQ & HO).
  rewrite EQ in H.
  destruct (inversion_sound eig sb sr LIB _ _ _ _ _ HO _ _ _ _ _ H (env_ok _ _ _ HE) i v Hi Hv)
    as (b & -> & Ha & c & al & Lc & Eal & Hc & Hp).
  exists b. split; [reflexivity|]. split; [rewrite <- env_entry; exact Ha|].
  intros s Hb. destruct (pdm_defaults_vec D r e a Hea) as (_ & _ & _ & _ & _ & ga & _ & _ & _ & Es).
  specialize (Es i). rewrite (pdm_taylor_any _ _ _ _ _ _ _ _ _ _ _ _ _ Es Hb).
  unfold pdm_inv_coef in Hc. rewrite Es in Hc.
  rewrite Eal, <- Hp. f_equal. apply taylor_value; [exact Lc|exact Hc].
Qed.

(** ** C31 *)
(** If the Taylor coefficients are finite and the polynomials of all elements
    have one degree, at least one, the call succeeds, and every admissible number
    occurs unmasked as often as its multiplicity as a solution says. *)
Lemma C31_fdm_complete_proof : forall eig sb sr D alpha A n z r L g d_Q0 d_Q1 n_trapz n_tayl thr ri ra env S
    (c : list nat -> list C) (al : list nat -> C) d,
  library eig sb sr -> env_fits env (fdm_inverse_operands alpha A n z r L g d_Q0 d_Q1) ->
  joint (fdm_inverse_operands alpha A n z r L g d_Q0 d_Q1) S -> (exists i, index_of S i) -> 1 <= d ->
  (forall i, index_of S i -> entry alpha i = Some (al i) /\ degree (c i) d /\ length (c i) = given_or (d_n_tayl D) n_tayl /\
     match fdm_defaults D (at_index r i) (at_index L i) (at_index g i) (at_index d_Q0 i) (at_index d_Q1 i) None with
     | (r, L, g, d_Q0, d_Q1, _) =>
       coefficients (fun j => fdm_taylor_coef D (given_or (d_z_tip D) (at_index z i)) j (entry A i) (entry n i)
                                (rr r) (rr L) (Some g) d_Q0 (rr d_Q1) n_trapz) (c i)
     end) ->
  exists result,
    fdm_refl_coef_qs_from_eff_pol_n eig sb sr D alpha A n z r L g d_Q0 d_Q1 n_trapz n_tayl thr ri ra env = Ok result /\
    elements result = S /\
    forall i b m, index_of S i ->
      admissible (given_or (d_beta_threshold D) thr) ri ra (given_or (d_eps_env D) (at_index env i)) b ->
      multiplicity (fun x => (peval (c i) x - al i)%C) b m -> occurrences (unmasked result i) b = m.
Proof.
  intros eig sb sr D alpha A n z r L g d0 d1 nt ntay thr ri ra env S c al d LIB HE HJ HI Hd HC.
  destruct (fdm_inversion eig sb sr D alpha A n z r L g d0 d1 nt ntay thr ri ra env) as (OFF & EQ & HO).
  assert (HC' : forall i, index_of S i -> length (c i) = dflt (d_n_tayl D) ntay /\
     (forall j, j < dflt (d_n_tayl D) ntay -> fdm_inv_coef D A n z r L g d0 d1 nt i j = Some (nth j (c i) (RtoC 0))) /\
     degree (c i) d /\ entry alpha i = Some (al i)).
  { intros i Hi. destruct (HC i Hi) as (H1 & H2 & H3 & H4). split; [exact H3|]. split; [|auto]. intros j Hj.
    unfold fdm_inv_coef. destruct (fdm_defaults D (at_index r i) (at_index L i) (at_index g i) (at_index d0 i) (at_index d1 i) None)
      as [[[[[r' L'] g'] d0'] d1'] da']. unfold fdm_coef. change (given_or (d_n_tayl D) ntay) with (dflt (d_n_tayl D) ntay) in H3.
    rewrite <- H3 in Hj. specialize (H4 j Hj). change (given_or (d_z_tip D) (at_index z i)) with (dflt (d_z_tip D) (at_index z i)) in H4.
    rewrite H4. reflexivity. }
  destruct (inversion_complete eig sb sr LIB _ _ _ _ _ HO (dflt (d_beta_threshold D) thr) ri ra (darr (d_eps_env D) env)
     S c al d (proj2 (bshapes_spec _ _) HJ) (env_ok _ _ _ HE S (proj2 (bshapes_spec _ _) HJ)) HI Hd HC') as (result & ER & EL & HR).
  exists result. rewrite EQ. split; [exact ER|]. split; [exact EL|]. intros i b m Hi Hb Hm.
  rewrite <- env_entry in Hb. apply (HR i b Hi Hb). exact Hm.
Qed.

(** The same for the point dipole model. *)
Lemma C31_pdm_complete_proof : forall eig sb sr D alpha A n z r eps_tip alpha_tip n_trapz n_tayl thr ri ra env S
    (c : list nat -> list C) (al : list nat -> C) d,
  library eig sb sr -> env_fits env (pdm_inverse_operands alpha A n z r eps_tip alpha_tip) ->
  eps_tip = None \/ alpha_tip = None ->
  joint (pdm_inverse_operands alpha A n z r eps_tip alpha_tip) S -> (exists i, index_of S i) -> 1 <= d ->
  (forall i, index_of S i -> entry alpha i = Some (al i) /\ degree (c i) d /\ length (c i) = given_or (d_n_tayl D) n_tayl /\
     exists r_i alpha_i, pdm_defaults D (at_index r i) (at_index eps_tip i) (at_index alpha_tip i) = Ok (r_i, alpha_i) /\
       coefficients (fun j => pdm_taylor_coef D (given_or (d_z_tip D) (at_index z i)) j (entry A i) (entry n i)
                                (rr r_i) alpha_i n_trapz) (c i)) ->
  exists result,
    pdm_refl_coef_qs_from_eff_pol_n eig sb sr D alpha A n z r eps_tip alpha_tip n_trapz n_tayl thr ri ra env = Ok result /\
    elements result = S /\
    forall i b m, index_of S i ->
      admissible (given_or (d_beta_threshold D) thr) ri ra (given_or (d_eps_env D) (at_index env i)) b ->
      multiplicity (fun x => (peval (c i) x - al i)%C) b m -> occurrences (unmasked result i) b = m.
Proof.
  intros eig sb sr D alpha A n z r e a nt ntay thr ri ra env S c al d LIB HE Hea HJ HI Hd HC.
  destruct (pdm_inversion eig sb sr D alpha A n z r e a nt ntay thr ri ra env Hea) as (OFF & EQ & HO).
  assert (HC' : forall i, index_of S i -> length (c i) = dflt (d_n_tayl D) ntay /\
     (forall j, j < dflt (d_n_tayl D) ntay -> pdm_inv_coef D A n z r e a nt i j = Some (nth j (c i) (RtoC 0))) /\
     degree (c i) d /\ entry alpha i = Some (al i)).
  { intros i Hi. destruct (HC i Hi) as (H1 & H2 & H3 & r' & a' & Hd' & H4). split; [exact H3|]. split; [|auto]. intros j Hj.
    unfold pdm_inv_coef. rewrite Hd'. unfold pdm_coef. change (given_or (d_n_tayl D) ntay) with (dflt (d_n_tayl D) ntay) in H3.
    rewrite <- H3 in Hj. specialize (H4 j Hj). change (given_or (d_z_tip D) (at_index z i)) with (dflt (d_z_tip D) (at_index z i)) in H4.
    rewrite H4. reflexivity. }
  destruct (inversion_complete eig sb sr LIB _ _ _ _ _ HO (dflt (d_beta_threshold D) thr) ri ra (darr (d_eps_env D) env)
     S c al d (proj2 (bshapes_spec _ _) HJ) (env_ok _ _ _ HE S (proj2 (bshapes_spec _ _) HJ)) HI Hd HC') as (result & ER & EL & HR).
  exists result. rewrite EQ. split; [exact ER|]. split; [exact EL|]. intros i b m Hi Hb Hm.
  rewrite <- env_entry in Hb. apply (HR i b Hi Hb). exact Hm.
Qed.

(** Inverting the Taylor approximation for a bulk sample gives back the
    reflection coefficient of the sample, among the unmasked values. *)
Lemma C31_fdm_recovers_proof : forall eig sb sr lag D alpha A n z r L g d_Q0 d_Q1 n_trapz n_tayl thr ri ra env S
    (c : list nat -> list C) d (s : list nat -> sample) (b : list nat -> C) d_Qa n_lag,
  library eig sb sr -> env_fits env (fdm_inverse_operands alpha A n z r L g d_Q0 d_Q1) ->
  joint (fdm_inverse_operands alpha A n z r L g d_Q0 d_Q1) S -> (exists i, index_of S i) -> 1 <= d ->
  (forall i, index_of S i -> degree (c i) d /\ length (c i) = given_or (d_n_tayl D) n_tayl /\
     match fdm_defaults D (at_index r i) (at_index L i) (at_index g i) (at_index d_Q0 i) (at_index d_Q1 i) None with
     | (r, L, g, d_Q0, d_Q1, _) =>
       coefficients (fun j => fdm_taylor_coef D (given_or (d_z_tip D) (at_index z i)) j (entry A i) (entry n i)
                                (rr r) (rr L) (Some g) d_Q0 (rr d_Q1) n_trapz) (c i)
     end) ->
  (forall i, index_of S i -> multilayer (s i) = false /\ refl_coef_qs (s i) (rr 0) = Ok (Some (b i)) /\
     admissible (given_or (d_beta_threshold D) thr) ri ra (given_or (d_eps_env D) (at_index env i)) (b i) /\
     fdm_eff_pol_n_taylor lag D (s i) (entry A i) (entry n i) (at_index z i) (at_index r i) (at_index L i) (at_index g i)
        (at_index d_Q0 i) (at_index d_Q1 i) d_Qa n_lag None n_trapz n_tayl = Ok (entry alpha i)) ->
  exists result,
    fdm_refl_coef_qs_from_eff_pol_n eig sb sr D alpha A n z r L g d_Q0 d_Q1 n_trapz n_tayl thr ri ra env = Ok result /\
    elements result = S /\ forall i, index_of S i -> In (Some (b i)) (unmasked result i).
Proof.
  intros eig sb sr lag D alpha A n z r L g d0 d1 nt ntay thr ri ra env S c d s b da n_lag LIB HE HJ HI Hd HC HS.
  destruct (fdm_inversion eig sb sr D alpha A n z r L g d0 d1 nt ntay thr ri ra env) as (OFF & EQ & HO).
  assert (HC' : forall i, index_of S i -> length (c i) = dflt (d_n_tayl D) ntay /\
     (forall j, j < dflt (d_n_tayl D) ntay -> fdm_inv_coef D A n z r L g d0 d1 nt i j = Some (nth j (c i) (RtoC 0))) /\
     degree (c i) d /\ entry alpha i = Some (peval (c i) (b i))).
  { intros i Hi. destruct (HC i Hi) as (H2 & H3 & H4). destruct (HS i Hi) as (M & B & Ad & E). split; [exact H3|].
    assert (H5 : forall j, j < dflt (d_n_tayl D) ntay -> fdm_inv_coef D A n z r L g d0 d1 nt i j = Some (nth j (c i) (RtoC 0))).
    { intros j Hj.
      unfold fdm_inv_coef. destruct (fdm_defaults D (at_index r i) (at_index L i) (at_index g i) (at_index d0 i) (at_index d1 i) None)
        as [[[[[r' L'] g'] d0'] d1'] da']. unfold fdm_coef. change (given_or (d_n_tayl D) ntay) with (dflt (d_n_tayl D) ntay) in H3.
      rewrite <- H3 in Hj. specialize (H4 j Hj). change (given_or (d_z_tip D) (at_index z i)) with (dflt (d_z_tip D) (at_index z i)) in H4.
      rewrite H4. reflexivity. }
    split; [exact H5|]. split; [exact H2|].
    rewrite (fdm_taylor_bulk _ _ _ _ _ _ _ _ _ _ _ _ _ _ _ _ M B) in E.
    pose proof (taylor_value (fdm_inv_coef D A n z r L g d0 d1 nt i) (b i) (c i) _ H3 H5) as V.
    unfold fdm_inv_coef in V. change (given_or (d_n_tayl D) ntay) with (dflt (d_n_tayl D) ntay) in V. rewrite V in E.
    injection E as E. symmetry. exact E. }
  destruct (inversion_complete eig sb sr LIB _ _ _ _ _ HO (dflt (d_beta_threshold D) thr) ri ra (darr (d_eps_env D) env)
     S c _ d (proj2 (bshapes_spec _ _) HJ) (env_ok _ _ _ HE S (proj2 (bshapes_spec _ _) HJ)) HI Hd HC') as (result & ER & EL & HR).
  exists result. rewrite EQ. split; [exact ER|]. split; [exact EL|]. intros i Hi. destruct (HS i Hi) as (M & B & Ad & E).
  rewrite <- env_entry in Ad. apply (HR i (b i) Hi Ad). reflexivity.
Qed.
(** The same for the point dipole model. *)
Lemma C31_pdm_recovers_proof : forall eig sb sr D alpha A n z r eps_tip alpha_tip n_trapz n_tayl thr ri ra env S
    (c : list nat -> list C) d (s : list nat -> sample) (b : list nat -> C),
  library eig sb sr -> env_fits env (pdm_inverse_operands alpha A n z r eps_tip alpha_tip) ->
  eps_tip = None \/ alpha_tip = None ->
  joint (pdm_inverse_operands alpha A n z r eps_tip alpha_tip) S -> (exists i, index_of S i) -> 1 <= d ->
  (forall i, index_of S i -> degree (c i) d /\ length (c i) = given_or (d_n_tayl D) n_tayl /\
     exists r_i alpha_i, pdm_defaults D (at_index r i) (at_index eps_tip i) (at_index alpha_tip i) = Ok (r_i, alpha_i) /\
       coefficients (fun j => pdm_taylor_coef D (given_or (d_z_tip D) (at_index z i)) j (entry A i) (entry n i)
                                (rr r_i) alpha_i n_trapz) (c i)) ->
  (forall i, index_of S i -> refl_coef_qs (s i) (rr 0) = Ok (Some (b i)) /\
     admissible (given_or (d_beta_threshold D) thr) ri ra (given_or (d_eps_env D) (at_index env i)) (b i) /\
     pdm_eff_pol_n_taylor D (s i) (entry A i) (entry n i) (at_index z i) (at_index r i) (at_index eps_tip i)
        (at_index alpha_tip i) n_trapz n_tayl = Ok (entry alpha i)) ->
  exists result,
    pdm_refl_coef_qs_from_eff_pol_n eig sb sr D alpha A n z r eps_tip alpha_tip n_trapz n_tayl thr ri ra env = Ok result /\
    elements result = S /\ forall i, index_of S i -> In (Some (b i)) (unmasked result i).
Proof.
  intros eig sb sr D alpha A n z r e a nt ntay thr ri ra env S c d s b LIB HE Hea HJ HI Hd HC HS.
  destruct (pdm_inversion eig sb sr D alpha A n z r e a nt ntay thr ri ra env Hea) as (OFF & EQ & HO).
  assert (HC' : forall i, index_of S i -> length (c i) = dflt (d_n_tayl D) ntay /\
     (forall j, j < dflt (d_n_tayl D) ntay -> pdm_inv_coef D A n z r e a nt i j = Some (nth j (c i) (RtoC 0))) /\
     degree (c i) d /\ entry alpha i = Some (peval (c i) (b i))).
  { intros i Hi. destruct (HC i Hi) as (H2 & H3 & r' & a' & Hd' & H4). destruct (HS i Hi) as (B & Ad & E). split; [exact H3|].
    assert (H5 : forall j, j < dflt (d_n_tayl D) ntay -> pdm_inv_coef D A n z r e a nt i j = Some (nth j (c i) (RtoC 0))).
    { intros j Hj. unfold pdm_inv_coef. rewrite Hd'. unfold pdm_coef. change (given_or (d_n_tayl D) ntay) with (dflt (d_n_tayl D) ntay) in H3.
      rewrite <- H3 in Hj. specialize (H4 j Hj). change (given_or (d_z_tip D) (at_index z i)) with (dflt (d_z_tip D) (at_index z i)) in H4.
      rewrite H4. reflexivity. }
    split; [exact H5|]. split; [exact H2|].
    rewrite (pdm_taylor_any _ _ _ _ _ _ _ _ _ _ _ _ _ Hd' B) in E.
    pose proof (taylor_value (pdm_inv_coef D A n z r e a nt i) (b i) (c i) _ H3 H5) as V.
    unfold pdm_inv_coef in V. rewrite Hd' in V. change (given_or (d_n_tayl D) ntay) with (dflt (d_n_tayl D) ntay) in V. rewrite V in E.
    injection E as E. symmetry. exact E. }
  destruct (inversion_complete eig sb sr LIB _ _ _ _ _ HO (dflt (d_beta_threshold D) thr) ri ra (darr (d_eps_env D) env)
     S c _ d (proj2 (bshapes_spec _ _) HJ) (env_ok _ _ _ HE S (proj2 (bshapes_spec _ _) HJ)) HI Hd HC') as (result & ER & EL & HR).
  exists result. rewrite EQ. split; [exact ER|]. split; [exact EL|]. intros i Hi. destruct (HS i Hi) as (B & Ad & E).
  rewrite <- env_entry in Ad. apply (HR i (b i) Hi Ad). reflexivity.
Qed.

(** ** C32 *)
Lemma layout : forall r ss, bshapes ss = Some (elements r) -> shp (snd r) = shp (fst r) -> (exists i, index_of (elements r) i) ->
  (n_rows r = 0 \/ exists i, index_of (elements r) i /\ length (unmasked r i) = n_rows r) ->
  exists i, index_of (elements r) i /\ length (unmasked r i) = n_rows r.
Proof.
  intros r ss _ _ (i & Hi) [H|H]; [|exact H]. exists i. split; [exact Hi|]. pose proof (unmasked_le r i). lia.
Qed.
(** The result and its mask have the joint shape of the arguments with one axis
    of solutions in front.  This axis is as long as the largest number of
    solutions of an element, in particular a call with scalars masks nothing.
    Every column is in increasing order of magnitude. *)
Lemma C32_fdm_layout_proof : forall eig sb sr D alpha A n z r L g d_Q0 d_Q1 n_trapz n_tayl thr ri ra env result,
  library eig sb sr -> env_fits env (fdm_inverse_operands alpha A n z r L g d_Q0 d_Q1) ->
  fdm_refl_coef_qs_from_eff_pol_n eig sb sr D alpha A n z r L g d_Q0 d_Q1 n_trapz n_tayl thr ri ra env = Ok result ->
  joint (fdm_inverse_operands alpha A n z r L g d_Q0 d_Q1) (elements result) /\ shp (snd result) = shp (fst result) /\
  (forall i, index_of (elements result) i -> length (unmasked result i) <= n_rows result) /\
  (exists i, index_of (elements result) i /\ length (unmasked result i) = n_rows result) /\
  (elements result = [] -> unmasked result [] = entries result []) /\
  (forall i, index_of (elements result) i -> StronglySorted nan_last (map cabs (entries result i))).
Proof.
  intros eig sb sr D alpha A n z r L g d0 d1 nt ntay thr ri ra env result LIB HE H.
  destruct (fdm_inversion eig sb sr D alpha A n z r L g d0 d1 nt ntay thr ri ra env) as (OFF & EQ & HO).
  rewrite EQ in H.
  destruct (inversion_ok eig sb sr LIB _ _ _ _ _ HO _ _ _ _ _ H (env_ok _ _ _ HE)) as (H1 & H2 & H3 & H4 & H5).
  pose proof (layout _ _ H1 H2 H3 H5) as H6.
  split; [apply bshapes_joint, H1|]. split; [exact H2|]. split; [intros; apply unmasked_le|]. split; [exact H6|]. split.
  - intro E. destruct H6 as (i & Hi & Hn). rewrite E in Hi. apply index_nil in Hi. subst i. apply unmasked_all, Hn.
  - intros i Hi. apply (H4 i Hi).
Qed.
(** The same for the point dipole model. *)
Lemma C32_pdm_layout_proof : forall eig sb sr D alpha A n z r eps_tip alpha_tip n_trapz n_tayl thr ri ra env result,
  library eig sb sr -> env_fits env (pdm_inverse_operands alpha A n z r eps_tip alpha_tip) ->
  pdm_refl_coef_qs_from_eff_pol_n eig sb sr D alpha A n z r eps_tip alpha_tip n_trapz n_tayl thr ri ra env = Ok result ->
  joint (pdm_inverse_operands alpha A n z r eps_tip alpha_tip) (elements result) /\ shp (snd result) = shp (fst result) /\
  (forall i, index_of (elements result) i -> length (unmasked result i) <= n_rows result) /\
  (exists i, index_of (elements result) i /\ length (unmasked result i) = n_rows result) /\
  (elements result = [] -> unmasked result [] = entries result []) /\
  (forall i, index_of (elements result) i -> StronglySorted nan_last (map cabs (entries result i))).
Proof.
  intros eig sb sr D alpha A n z r e a nt ntay thr ri ra env result LIB HE H.
  assert (Hea : e = None \/ a = None).
  { destruct e; [|auto]. destruct a; [|auto]. exfalso. cbn in H. discriminate. }
  destruct (pdm_inversion eig sb sr D alpha A n z r e a nt ntay thr ri ra env Hea) as (OFF & EQ & HO).
  rewrite EQ in H.
  destruct (inversion_ok eig sb sr LIB _ _ _ _ _ HO _ _ _ _ _ H (env_ok _ _ _ HE)) as (H1 & H2 & H3 & H4 & H5).
  pose proof (layout _ _ H1 H2 H3 H5) as H6.
  split; [apply bshapes_joint, H1|]. split; [exact H2|]. split; [intros; apply unmasked_le|]. split; [exact H6|]. split.
  - intro E. destruct H6 as (i & Hi & Hn). rewrite E in Hi. apply index_nil in Hi. subst i. apply unmasked_all, Hn.
  - intros i Hi. apply (H4 i Hi).
Qed.
