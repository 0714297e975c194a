(** * Calls while the defaults are being changed: lemmas for C93 *)
From Coq Require Import String Reals Lra Lia ZArith List Bool.
From Coquelicot Require Import Complex.
From Verif Require Import Num NumLemmas ModelBase ModelSample ModelTip ModelCache ModelThread SpecThread.
Import ListNotations.
Open Scope R_scope.

(** ** What a function raises does not depend on the height *)
Definition uniform {A B} (f : A -> res B) : Prop :=
  exists (G : res unit) (g : A -> B), forall a, f a = rbind G (fun _ => Ok (g a)).
Lemma uniform_pure {A B} (g : A -> B) : uniform (fun a => Ok (g a)).
Proof. exists (Ok tt), g. reflexivity. Qed.
Lemma uniform_map {A B B'} (f : A -> res B) (h : A -> B -> B') :
  uniform f -> uniform (fun a => rbind (f a) (fun b => Ok (h a b))).
Proof.
  intros (G & g & H). exists G, (fun a => h a (g a)). intro a. rewrite H. destruct G; reflexivity.
Qed.
Lemma uniform_pre {A A' B} (f : A -> res B) (k : A' -> A) : uniform f -> uniform (fun a => f (k a)).
Proof. intros (G & g & H). exists G, (fun a => g (k a)). intro a. apply H. Qed.
Lemma uniform_const {A B} (r : res B) : forall b0 : B, uniform (fun _ : A => r).
Proof.
  intro b0. destruct r as [b|e].
  - exists (Ok tt), (fun _ => b). reflexivity.
  - exists (Raise e), (fun _ => b0). reflexivity.
Qed.
Lemma uniform_mapM {A B} (f : A -> res B) l e : uniform f -> l <> [] -> forall a, f a = Raise e -> mapM f l = Raise e.
Proof.
  intros (G & g & H) N a E. destruct l as [|b l]; [congruence|]. cbn [mapM]. rewrite H in *. destruct G; [discriminate|].
  cbn [rbind] in *. exact E || congruence.
Qed.
Lemma uniform_mapM_Ok {A B} (f : A -> res B) l : uniform f -> forall a b, f a = Ok b -> exists l', mapM f l = Ok l'.
Proof.
  intros (G & g & H) a b E. rewrite H in E. destruct G; [|discriminate]. exists (map g l).
  induction l as [|c l IH]; [reflexivity|]. cbn [mapM]. rewrite H, IH. reflexivity.
Qed.
Lemma mapM_map {A B X} (f : A -> res B) (k : X -> A) l : mapM f (map k l) = mapM (fun x => f (k x)) l.
Proof. induction l as [|a l IH]; [reflexivity|]. cbn [map mapM]. destruct (f (k a)); [|reflexivity]. cbn [rbind]. now rewrite IH. Qed.
Lemma mapM_ext {A B} (f g : A -> res B) l : (forall a, f a = g a) -> mapM f l = mapM g l.
Proof. intro H. induction l as [|a l IH]; [reflexivity|]. cbn [mapM]. now rewrite H, IH. Qed.

Lemma refl_uniform s : uniform (refl_coef_qs s).
Proof.
  unfold refl_coef_qs, transfer_matrix_qs. destruct (trans_matrices_qs s) as [|T0 Ts].
  - exists (Raise IndexError), (fun _ => None). reflexivity.
  - destruct (multilayer s).
    + exists (Ok tt), (fun q => let M := chain T0 (combine Ts (prop_matrices_qs s q)) in (m10 M / m00 M)%cv). reflexivity.
    + eexists (Ok tt), (fun q => _). reflexivity.
Qed.
Lemma sampled_uniform lg s n : uniform (fun z => sampled_beta lg s z n).
Proof.
  unfold sampled_beta. destruct (Nat.eqb n 0).
  - exists (Raise (ValueError msg_laggauss)), (fun _ => []). reflexivity.
  - destruct (refl_uniform s) as (G & g & H). exists G, (fun z => map (fun xw => (fst xw, snd xw, g (rr (fst xw) / (rr 2 * z))%rv)) (lg n)).
    intro z. rewrite H. destruct G; [|reflexivity]. cbn [rbind]. induction (lg n) as [|xw l IH]; [reflexivity|].
    cbn [mapM map]. rewrite H. cbn [rbind]. now rewrite IH.
Qed.
Lemma above_uniform lg D s n : uniform (fun z => refl_coef_qs_above_surf lg D s z n).
Proof. unfold refl_coef_qs_above_surf. apply (uniform_map _ (fun _ bs => _)), sampled_uniform. Qed.
Lemma surf_uniform lg D s n : uniform (fun z => surf_pot_and_field lg D s z n).
Proof. unfold surf_pot_and_field. apply (uniform_map _ (fun z bs => _)), sampled_uniform. Qed.
Lemma image_uniform lg D s n : uniform (fun z => image_depth_and_charge lg D s z n).
Proof. unfold image_depth_and_charge. apply (uniform_map _ (fun z bs => _)), surf_uniform. Qed.

(** the reads *)
Definition tick {A} (o : option A) (i : nat) : nat := match o with None => S i | Some _ => i end.
Lemma or_default_eq {A} sched (attr : Defaults -> A) o i : or_default sched attr o i = (Ok (dflt (attr (sched i)) o), tick o i).
Proof. destruct o; reflexivity. Qed.
Lemma tick_le {A} (o : option A) i : (i <= tick o i)%nat.
Proof. destruct o; cbn; lia. Qed.
Lemma tick_S {A} (o : option A) i : (tick o i <= S i)%nat.
Proof. destruct o; cbn; lia. Qed.

Lemma tbind_ok {A B} (m : thr A) (f : A -> thr B) i a j : m i = (Ok a, j) -> tbind m f i = f a j.
Proof. intro H. unfold tbind. now rewrite H. Qed.
Lemma tbind_raise {A B} (m : thr A) (f : A -> thr B) i e j : m i = (Raise e, j) -> tbind m f i = (Raise e, j).
Proof. intro H. unfold tbind. now rewrite H. Qed.

Section Reads.
Variable lg : laggauss_t.
Variable sched : nat -> Defaults.

(** the state assembled from reads at the given instants *)
Definition D_of (kz kr kL kg k1 ka kN kl kJ : nat) : Defaults :=
  mkDefaults (d_eps_env (sched kz)) (d_z_tip (sched kz)) (d_r_tip (sched kr)) (d_L_tip (sched kL)) (d_g_factor (sched kg))
    (d_d_Q1 (sched k1)) (d_d_Qa (sched ka)) (d_n_trapz (sched kN)) (d_n_lag (sched kl)) (d_n_tayl (sched kJ))
    (d_beta_threshold (sched kz)).
Lemma assembled_D_of i j kz kr kL kg k1 ka kN kl kJ :
  (i <= kz <= j -> i <= kr <= j -> i <= kL <= j -> i <= kg <= j -> i <= k1 <= j -> i <= ka <= j ->
   i <= kN <= j -> i <= kl <= j -> i <= kJ <= j -> assembled sched i j (D_of kz kr kL kg k1 ka kN kl kJ))%nat.
Proof.
  intros. unfold assembled, attribute_held, D_of; cbn.
  repeat split; eexists; (split; [|reflexivity]); assumption.
Qed.

Lemma t_fdm_defaults_eq r L g d0 d1 da i :
  let iL := tick r i in let ig := tick L iL in let i1 := tick g ig in let ia := tick d1 i1 in
  t_fdm_defaults sched r L g d0 d1 da i =
  (Ok (dflt (d_r_tip (sched i)) r, dflt (d_L_tip (sched iL)) L, dflt (d_g_factor (sched ig)) g,
       match d0 with
       | None => (rr (131 / 100) * rr (dflt (d_L_tip (sched iL)) L) / (rr (dflt (d_L_tip (sched iL)) L) + rr 2 * rr (dflt (d_r_tip (sched i)) r)))%rv
       | Some d => rr d end, dflt (d_d_Q1 (sched i1)) d1, dflt (d_d_Qa (sched ia)) da), tick da ia).
Proof.
  intros iL ig i1 ia. unfold t_fdm_defaults.
  rewrite (tbind_ok _ _ _ _ _ (or_default_eq sched d_r_tip r i)).
  rewrite (tbind_ok _ _ _ _ _ (or_default_eq sched d_L_tip L (tick r i))).
  rewrite (tbind_ok _ _ _ _ _ (or_default_eq sched d_g_factor g (tick L (tick r i)))).
  rewrite (tbind_ok _ _ _ _ _ (or_default_eq sched d_d_Q1 d1 (tick g (tick L (tick r i))))).
  rewrite (tbind_ok _ _ _ _ _ (or_default_eq sched d_d_Qa da (tick d1 (tick g (tick L (tick r i)))))).
  reflexivity.
Qed.

Lemma t_above_eq s zs n i :
  t_above_surf lg sched s zs n i =
  (mapM (fun z => refl_coef_qs_above_surf lg (sched i) s z n) zs, tick n i).
Proof. unfold t_above_surf. rewrite (tbind_ok _ _ _ _ _ (or_default_eq sched d_n_lag n i)). reflexivity. Qed.
Lemma t_surf_eq s zs n i :
  t_surf_pot lg sched s zs n i = (mapM (fun z => surf_pot_and_field lg (sched i) s z n) zs, tick n i).
Proof. unfold t_surf_pot. rewrite (tbind_ok _ _ _ _ _ (or_default_eq sched d_n_lag n i)). reflexivity. Qed.
Lemma mapM_after {A B C} (f : A -> res B) (h : A * B -> C) l :
  rbind (mapM f l) (fun bs => Ok (map h (combine l bs))) = mapM (fun a => rbind (f a) (fun b => Ok (h (a, b)))) l.
Proof.
  induction l as [|a l IH]; [reflexivity|]. cbn [mapM]. destruct (f a) as [b|e]; [|reflexivity]. cbn [rbind].
  rewrite <- IH. destruct (mapM f l); reflexivity.
Qed.
Lemma t_image_eq s zs n i :
  t_image lg sched s zs n i = (mapM (fun z => image_depth_and_charge lg (sched i) s z n) zs, tick n i).
Proof.
  unfold t_image, tbind. rewrite t_surf_eq. unfold tpure.
  pose proof (mapM_after (fun z => surf_pot_and_field lg (sched i) s z n)
    (fun zpE : RV * (CV * CV) => let (z_Q, y) := zpE in let (phi, E) := y in ((cabs (phi / E)%cv - z_Q)%rv, (phi ^ 2 / E)%cv)) zs) as M.
  transitivity (rbind (mapM (fun z => surf_pot_and_field lg (sched i) s z n) zs)
    (fun bs => Ok (map (fun zpE : RV * (CV * CV) => let (z_Q, y) := zpE in let (phi, E) := y in ((cabs (phi / E)%cv - z_Q)%rv, (phi ^ 2 / E)%cv)) (combine zs bs))), tick n i).
  - destruct (mapM (fun z => surf_pot_and_field lg (sched i) s z n) zs); reflexivity.
  - rewrite M. f_equal. apply mapM_ext. intro z. unfold image_depth_and_charge.
    destruct (surf_pot_and_field lg (sched i) s z n) as [[p E]|]; reflexivity.
Qed.
(** only the default order of the rule is used *)
Lemma above_D D D' s z n : dflt (d_n_lag D) n = dflt (d_n_lag D') n ->
  refl_coef_qs_above_surf lg D s z n = refl_coef_qs_above_surf lg D' s z n.
Proof. unfold refl_coef_qs_above_surf. intro H. now rewrite H. Qed.
Lemma surf_D D D' s z n : dflt (d_n_lag D) n = dflt (d_n_lag D') n ->
  surf_pot_and_field lg D s z n = surf_pot_and_field lg D' s z n.
Proof. unfold surf_pot_and_field. intro H. now rewrite H. Qed.
Lemma image_D D D' s z n : dflt (d_n_lag D) n = dflt (d_n_lag D') n ->
  image_depth_and_charge lg D s z n = image_depth_and_charge lg D' s z n.
Proof. unfold image_depth_and_charge. intro H. now rewrite (surf_D D D' s z n H). Qed.

Definition agree (D D' : Defaults) : Prop :=
  d_r_tip D = d_r_tip D' /\ d_L_tip D = d_L_tip D' /\ d_g_factor D = d_g_factor D' /\ d_d_Q1 D = d_d_Q1 D' /\
  d_d_Qa D = d_d_Qa D' /\ d_n_lag D = d_n_lag D'.
Definition is_multi (s : sample) (m : option string) : bool :=
  match m with None => multilayer s | Some m => String.eqb m "multi" end.

Lemma fdm_uniform D s r L g d0 d1 da n m : uniform (fun z => fdm_eff_pol lg D s (Some z) r L g d0 d1 da n m).
Proof.
  unfold fdm_eff_pol. cbn [dflt]. destruct (fdm_defaults D r L g d0 d1 da) as [[[[[r' L'] g'] d0'] d1'] da'].
  set (mm := match m with None => _ | Some m => m end).
  destruct (String.eqb mm "bulk"); [|destruct (String.eqb mm "multi"); [|destruct (String.eqb mm "Q_ave")]].
  - destruct (multilayer s).
    + exists (Raise (ValueError msg_bulk_multi)), (fun _ => None). reflexivity.
    + destruct (refl_coef_qs s (rr 0)) as [b|e].
      * eexists (Ok tt), (fun z => _). reflexivity.
      * exists (Raise e), (fun _ => None). reflexivity.
  - destruct (image_uniform lg D s n) as (G & h & H).
    exists G, (fun z => (rc 1 + (snd (h (rr z + rr r' * d0')%rv) * fdm_geom_func_multi (rr z) (fst (h (rr z + rr r' * d0')%rv)) (rr r') (rr L') (Some g')) /
        (rc 2 * (rc 1 - snd (h (rr z + rr r' * rr d1')%rv) * fdm_geom_func_multi (rr z) (fst (h (rr z + rr r' * rr d1')%rv)) (rr r') (rr L') (Some g'))))%cv).
    intro z. rewrite !H. destruct G; reflexivity.
  - destruct (above_uniform lg D s n) as (G & h & H).
    eexists G, (fun z => _). intro z. rewrite !H. destruct G; [|reflexivity]. cbn [rbind]. reflexivity.
  - exists (Raise (ValueError msg_method)), (fun _ => None). reflexivity.
Qed.

Lemma combine_map2 {A B X Y} (f : A -> X) (g : A -> Y) (h : A * (X * Y) -> B) l :
  map h (combine l (combine (map f l) (map g l))) = map (fun a => h (a, (f a, g a))) l.
Proof. induction l as [|a l IH]; [reflexivity|]. cbn. now rewrite IH. Qed.
Lemma combine_map1 {A B X} (f : A -> X) (h : A * X -> B) l :
  map h (combine l (map f l)) = map (fun a => h (a, f a)) l.
Proof. induction l as [|a l IH]; [reflexivity|]. cbn. now rewrite IH. Qed.
Lemma mapM_pure {A B} (f : A -> B) l : mapM (fun a => Ok (f a)) l = Ok (map f l).
Proof. induction l as [|a l IH]; [reflexivity|]. cbn [mapM map]. rewrite IH. reflexivity. Qed.
Lemma mapM_raise {A B} e (l : list A) : l <> [] -> mapM (fun _ : A => Raise e : res B) l = Raise e.
Proof. destruct l; [congruence|reflexivity]. Qed.
Lemma mapM_guard {A B} (G : res unit) (f : A -> B) l : l <> [] -> mapM (fun a => rbind G (fun _ => Ok (f a))) l = rbind G (fun _ => Ok (map f l)).
Proof. intro N. destruct G; cbn [rbind]; [apply mapM_pure|now apply mapM_raise]. Qed.

Lemma fdm_heights s zs r L g d0 d1 da n m i :
  zs <> [] ->
  let j := snd (t_fdm_heights lg sched s zs r L g d0 d1 da n m i) in
  (is_multi s m = true -> n = None -> forall k k', (i <= k <= j)%nat -> (i <= k' <= j)%nat -> d_n_lag (sched k) = d_n_lag (sched k')) ->
  (i <= j)%nat /\
  exists kr kL kg k1 ka kl : nat,
  (i <= kr <= j)%nat /\ (i <= kL <= j)%nat /\ (i <= kg <= j)%nat /\ (i <= k1 <= j)%nat /\ (i <= ka <= j)%nat /\ (i <= kl <= j)%nat /\
  forall kz kN kJ,
  fst (t_fdm_heights lg sched s zs r L g d0 d1 da n m i) =
  mapM (fun z => fdm_eff_pol lg (D_of kz kr kL kg k1 ka kN kl kJ) s (Some z) r L g d0 d1 da n m) zs.
Proof.
  intros N. unfold t_fdm_heights.
  rewrite (tbind_ok _ _ _ _ _ (t_fdm_defaults_eq r L g d0 d1 da i)).
  set (iL := tick r i). set (ig := tick L iL). set (i1 := tick g ig). set (ia := tick d1 i1). set (il := tick da ia).
  assert (i <= iL /\ iL <= ig /\ ig <= i1 /\ i1 <= ia /\ ia <= il)%nat as (H1 & H2 & H3 & H4 & H5)
    by (repeat split; apply tick_le).
  cbv beta iota zeta.
  set (r' := rr (dflt (d_r_tip (sched i)) r)). set (L' := rr (dflt (d_L_tip (sched iL)) L)).
  set (g' := Some (dflt (d_g_factor (sched ig)) g)).
  set (d0' := match d0 with None => _ | Some d => rr d end).
  set (d1' := rr (dflt (d_d_Q1 (sched i1)) d1)). set (da' := rr (dflt (d_d_Qa (sched ia)) da)).
  set (mm := match m with None => _ | Some m => m end).
  intro Hn.
  assert (Em : String.eqb mm "multi" = is_multi s m) by (unfold mm, is_multi; destruct m; [reflexivity|destruct (multilayer s); reflexivity]).
  assert (FD : forall kz kN kl kJ, fdm_defaults (D_of kz i iL ig i1 ia kN kl kJ) r L g d0 d1 da =
    (dflt (d_r_tip (sched i)) r, dflt (d_L_tip (sched iL)) L, dflt (d_g_factor (sched ig)) g, d0', dflt (d_d_Q1 (sched i1)) d1, dflt (d_d_Qa (sched ia)) da))
    by reflexivity.
  destruct (String.eqb mm "bulk") eqn:Eb; [|destruct (String.eqb mm "multi") eqn:Emu; [|destruct (String.eqb mm "Q_ave") eqn:Eq]].
  - cbn [tpure fst snd] in *. split; [lia|]. exists i, iL, ig, i1, ia, i. repeat (split; [lia|]). intros kz kN kJ.
    unfold fdm_eff_pol. rewrite FD. cbv beta iota zeta. fold mm. rewrite Eb. cbn [dflt].
    destruct (multilayer s); [cbn [rbind]; symmetry; now apply mapM_raise|].
    destruct (refl_coef_qs s (rr 0)); cbn [rbind]; [symmetry; apply mapM_pure|symmetry; now apply mapM_raise].
  - rewrite <- Em in Hn.
    destruct (image_uniform lg (sched il) s n) as (G & h & H).
    set (il2 := tick n il) in *. set (il3 := tick n il2) in *.
    assert (il <= il2 /\ il2 <= il3)%nat as (H6 & H7) by (split; apply tick_le).
    assert (I0 : t_image lg sched s (map (fun z => (rr z + r' * d0')%rv) zs) n il =
      (rbind G (fun _ => Ok (map (fun z => h (rr z + r' * d0')%rv) zs)), il2)).
    { rewrite t_image_eq, mapM_map. f_equal. rewrite <- (mapM_guard G _ zs N). apply mapM_ext. intro; apply H. }
    destruct G as [[]|e]; cbn [rbind] in I0.
    + rewrite (tbind_ok _ _ _ _ _ I0) in *.
      assert (E : dflt (d_n_lag (sched il2)) n = dflt (d_n_lag (sched il)) n).
      { pose proof (t_image_eq s (map (fun z => (rr z + r' * d1')%rv) zs) n il2) as I1. fold il3 in I1. clearbody il2 il3.
        destruct n as [n|]; [reflexivity|]. cbn [dflt].
        destruct (mapM (fun z => image_depth_and_charge lg (sched il2) s z None) (map (fun z => (rr z + r' * d1')%rv) zs));
        [rewrite (tbind_ok _ _ _ _ _ I1) in Hn|rewrite (tbind_raise _ _ _ _ _ I1) in Hn];
        cbn [tpure snd] in Hn; apply Hn; auto; lia. }
      assert (I1 : t_image lg sched s (map (fun z => (rr z + r' * d1')%rv) zs) n il2 =
        (Ok (map (fun z => h (rr z + r' * d1')%rv) zs), il3)).
      { rewrite t_image_eq, mapM_map. f_equal. rewrite <- (mapM_pure _ zs). apply mapM_ext. intro.
        rewrite (image_D (sched il2) (sched il) _ _ _ E); apply H. }
      rewrite (tbind_ok _ _ _ _ _ I1) in *. cbn [tpure fst snd] in *.
      split; [lia|]. exists i, iL, ig, i1, ia, il. repeat (split; [lia|]). intros kz kN kJ.
      rewrite combine_map2. symmetry. rewrite <- (mapM_pure _ zs). apply mapM_ext. intro z.
      unfold fdm_eff_pol. rewrite FD. cbv beta iota zeta. fold mm. rewrite Eb, Emu. cbn [dflt].
      rewrite !(image_D (D_of kz i iL ig i1 ia kN il kJ) (sched il) _ _ _ eq_refl), !H. cbn [rbind]. reflexivity.
    + rewrite (tbind_raise _ _ _ _ _ I0) in *. cbn [fst snd] in *. split; [lia|]. exists i, iL, ig, i1, ia, il. repeat (split; [lia|]). intros kz kN kJ.
      symmetry. rewrite <- (mapM_raise e zs N) at 1. apply mapM_ext. intro z.
      unfold fdm_eff_pol. rewrite FD. cbv beta iota zeta. fold mm. rewrite Eb, Emu. cbn [dflt].
      rewrite !(image_D (D_of kz i iL ig i1 ia kN il kJ) (sched il) _ _ _ eq_refl), !H. cbn [rbind]. reflexivity.
  - destruct (above_uniform lg (sched il) s n) as (G & h & H). pose proof (tick_le n il).
    assert (I0 : t_above_surf lg sched s (map (fun z => (rr z + r' * da')%rv) zs) n il =
      (rbind G (fun _ => Ok (map (fun z => h (rr z + r' * da')%rv) zs)), tick n il)).
    { rewrite t_above_eq, mapM_map. f_equal. rewrite <- (mapM_guard G _ zs N). apply mapM_ext. intro; apply H. }
    destruct G as [[]|e]; cbn [rbind] in I0;
    [rewrite (tbind_ok _ _ _ _ _ I0) in *|rewrite (tbind_raise _ _ _ _ _ I0) in *]; cbn [tpure fst snd] in *; (split; [lia|]); exists i, iL, ig, i1, ia, il; repeat (split; [lia|]); intros kz kN kJ.
    + rewrite combine_map1. symmetry. rewrite <- (mapM_pure _ zs). apply mapM_ext. intro z.
      unfold fdm_eff_pol. rewrite FD. cbv beta iota zeta. fold mm. rewrite Eb, Emu, Eq. cbn [dflt].
      rewrite !(above_D (D_of kz i iL ig i1 ia kN il kJ) (sched il) _ _ _ eq_refl), !H. cbn [rbind]. reflexivity.
    + symmetry. rewrite <- (mapM_raise e zs N) at 1. apply mapM_ext. intro z.
      unfold fdm_eff_pol. rewrite FD. cbv beta iota zeta. fold mm. rewrite Eb, Emu, Eq. cbn [dflt].
      rewrite !(above_D (D_of kz i iL ig i1 ia kN il kJ) (sched il) _ _ _ eq_refl), !H. cbn [rbind]. reflexivity.
  - cbn [tpure fst snd] in *. split; [lia|]. exists i, iL, ig, i1, ia, i. repeat (split; [lia|]). intros kz kN kJ.
    symmetry. rewrite <- (mapM_raise (ValueError msg_method) zs N) at 1. apply mapM_ext. intro z.
    unfold fdm_eff_pol. rewrite FD. cbv beta iota zeta. fold mm. rewrite Eb, Emu, Eq. cbn [dflt]. reflexivity.
Qed.
End Reads.
