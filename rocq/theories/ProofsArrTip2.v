(** * Broadcasting of the tip models (C48) *)
From Coq Require Import String Reals Lra Lia ZArith List Bool.
From Coquelicot Require Import Rcomplements Complex.
From Verif Require Import Num NumLemmas ModelBase ModelSample ModelTip NArr SpecArr NArrLemmas ModelObj
  ModelArr SpecObj ArrSample ProofsArr ProofsArr2 ModelArrTip ProofsArrTip.
Import ListNotations.
Open Scope R_scope.

Ltac vsolve := lazymatch goal with
  | |- vec _ _ (lift2 ?f _ _) => apply (vec_lift2 _ _ _ f); [vsolve|vsolve]
  | |- vec _ _ (lift1 ?f _) => apply (vec_lift1 _ _ f); vsolve
  | |- vec _ _ (amap2 ?f _ _) => apply (vec_map2 _ _ _ f); [vsolve|vsolve]
  | |- vec _ _ (Ok (amap ?f _)) => apply (vec_map _ _ f); vsolve
  | |- vec _ _ (Ok (darr _ _)) => apply vec_darr
  | |- vec _ _ (Ok (scalar _)) => apply vec_scalar
  | |- vec _ _ (Ok ?a) => first [match goal with H : vec _ _ (Ok a) |- _ => exact H end | apply vec_arr]
  | |- vec _ _ ?r => match goal with H : vec _ _ r |- _ => exact H end
  end.
Ltac in_leaf := first
  [ apply in_eq | apply in_cons; in_leaf
  | apply in_or_app; left; in_leaf | apply in_or_app; right; in_leaf ].
Ltac incl_leaf := first
  [ apply incl_refl | apply incl_nil_l | apply incl_appl; incl_leaf | apply incl_appr; incl_leaf
  | apply incl_tl; incl_leaf ].
Ltac isolve := cbn [shape_of]; repeat (apply incl_app || (apply incl_cons; [in_leaf|])); incl_leaf.
Ltac vby := eapply vec_by; [vsolve|isolve|isolve|reflexivity].

Lemma geom_vec : forall zs ds rs Ls gs z d r L g gz gd gr gL gg,
  vec zs gz (Ok z) -> vec ds gd (Ok d) -> vec rs gr (Ok r) -> vec Ls gL (Ok L) -> vec gs gg (Ok g) ->
  vec (zs ++ ds ++ rs ++ Ls ++ gs) (fun i => fdm_geom_func (gz i) (gd i) (gr i) (gL i) (gg i))
      (fdm_geom_func_a z d r L g).
Proof. intros. unfold fdm_geom_func_a. vby. Qed.
Lemma geom_multi_vec : forall zs ds rs Ls gs z d r L g gz gd gr gL gg,
  vec zs gz (Ok z) -> vec ds gd (Ok d) -> vec rs gr (Ok r) -> vec Ls gL (Ok L) -> vec gs gg (Ok g) ->
  vec (zs ++ ds ++ rs ++ Ls ++ gs) (fun i => fdm_geom_func_multi (gz i) (gd i) (gr i) (gL i) (gg i))
      (fdm_geom_func_multi_a z d r L g).
Proof. intros. unfold fdm_geom_func_multi_a. vby. Qed.
Lemma alpha_vec : forall b0s b1s f0s f1s b0 b1 f0 f1 gb0 gb1 gf0 gf1,
  vec b0s gb0 (Ok b0) -> vec b1s gb1 (Ok b1) -> vec f0s gf0 (Ok f0) -> vec f1s gf1 (Ok f1) ->
  vec (b0s ++ b1s ++ f0s ++ f1s)
      (fun i => (rc 1 + (gb0 i * gf0 i) / (rc 2 * (rc 1 - gb1 i * gf1 i)))%cv) (fdm_alpha_a b0 b1 f0 f1).
Proof. intros. unfold fdm_alpha_a. vby. Qed.
Lemma geom_taylor_vec : forall zs js rs Ls gs d0s d1s z j r L g d0 d1 gz gj gr gL gg gd0 gd1,
  vec zs gz (Ok z) -> vec js gj (Ok j) -> vec rs gr (Ok r) -> vec Ls gL (Ok L) -> vec gs gg (Ok g) ->
  vec d0s gd0 (Ok d0) -> vec d1s gd1 (Ok d1) ->
  vec (zs ++ js ++ rs ++ Ls ++ gs ++ d0s ++ d1s)
      (fun i => fdm_geom_func_taylor (gz i) (gj i) (gr i) (gL i) (gg i) (gd0 i) (gd1 i))
      (fdm_geom_func_taylor_a z j r L g d0 d1).
Proof.
  intros. unfold fdm_geom_func_taylor_a.
  eapply vec_let; [apply geom_vec; eassumption|isolve|]. intros f0 V0.
  eapply vec_let; [apply geom_vec; eassumption|isolve|]. intros f1 V1.
  vby.
Qed.
Lemma pdm_geom_vec : forall zs rs als z r a gz gr ga,
  vec zs gz (Ok z) -> vec rs gr (Ok r) -> vec als ga (Ok a) ->
  vec (zs ++ rs ++ als) (fun i => pdm_geom_func (gz i) (gr i) (ga i)) (pdm_geom_func_a z r a).
Proof. intros. unfold pdm_geom_func_a. vby. Qed.

(** defaults *)
Lemma fdm_defaults_vec : forall D r L g dQ0 dQ1 dQa,
  exists r' L' g' dQ1' dQa' rd,
    fdm_defaults_a D r L g dQ0 dQ1 dQa = (let! d := rd in Ok (r', L', g', d, dQ1', dQa')) /\
    vec (shape_of r) (fun i => dflt (d_r_tip D) (at_index r i)) (Ok r') /\
    vec (shape_of L) (fun i => dflt (d_L_tip D) (at_index L i)) (Ok L') /\
    vec (shape_of g) (fun i => dflt (d_g_factor D) (at_index g i)) (Ok g') /\
    vec (shape_of dQ1) (fun i => dflt (d_d_Q1 D) (at_index dQ1 i)) (Ok dQ1') /\
    vec (shape_of dQa) (fun i => dflt (d_d_Qa D) (at_index dQa i)) (Ok dQa') /\
    exists s0 gd, vec s0 gd rd /\ incl s0 (shape_of r ++ shape_of L ++ shape_of dQ0) /\
      incl (shape_of dQ0) s0 /\
      forall i, fdm_defaults D (at_index r i) (at_index L i) (at_index g i) (at_index dQ0 i)
                  (at_index dQ1 i) (at_index dQa i)
        = (dflt (d_r_tip D) (at_index r i), dflt (d_L_tip D) (at_index L i), dflt (d_g_factor D) (at_index g i),
           gd i, dflt (d_d_Q1 D) (at_index dQ1 i), dflt (d_d_Qa D) (at_index dQa i)).
Proof.
  intros. unfold fdm_defaults_a.
  do 6 eexists. split; [reflexivity|].
  do 5 (split; [apply vec_darr|]).
  destruct dQ0 as [d|].
  - exists [shp d], (fun i => rr (entry d i)). split; [vsolve|].
    split; [isolve|]. split; [isolve|]. intro i. reflexivity.
  - eexists _, _. split; [vsolve|]. split; [isolve|]. split; [isolve|]. intro i. reflexivity.
Qed.

Lemma pdm_defaults_vec : forall D r e a, e = None \/ a = None ->
  exists r' ra, pdm_defaults_a D r e a = (let! x := ra in Ok (r', x)) /\
    vec (shape_of r) (fun i => dflt (d_r_tip D) (at_index r i)) (Ok r') /\
    exists s0 ga, vec s0 ga ra /\ incl s0 (shape_of r ++ shape_of e ++ shape_of a) /\
      incl (shape_of e ++ shape_of a) s0 /\
      forall i, pdm_defaults D (at_index r i) (at_index e i) (at_index a i)
        = Ok (dflt (d_r_tip D) (at_index r i), ga i).
Proof.
  intros D r e a H. unfold pdm_defaults_a.
  destruct e as [e|], a as [a|]; [destruct H; discriminate|..].
  - eexists _, _. split; [reflexivity|]. split; [apply vec_darr|].
    eexists _, _. split; [vsolve|]. split; [isolve|]. split; [isolve|]. intro i. reflexivity.
  - exists (darr (d_r_tip D) r), (Ok (amap Some a)). split; [reflexivity|]. split; [apply vec_darr|].
    eexists _, _. split; [vsolve|]. split; [isolve|]. split; [isolve|]. intro i. reflexivity.
  - eexists _, (Ok _). split; [reflexivity|]. split; [apply vec_darr|].
    eexists _, _. split; [vsolve|]. split; [isolve|]. split; [isolve|]. intro i. reflexivity.
Qed.

Lemma multilayer_at : forall o, consistent o ->
  get_multilayer o = Ok (many_layers o) /\ forall i, multilayer (sample_at o i) = many_layers o.
Proof.
  intros o (e & t & He & Ht & Hl & _). unfold get_multilayer, get_n_layers, many_layers, multilayer, n_layers, sample_at.
  rewrite He. cbn. split; [reflexivity|]. intro i. rewrite map_length, slices_length. reflexivity.
Qed.
Lemma beta0_vec : forall o, consistent o ->
  exists g, vec [eps_shape o; t_shape o] g (refl_coef_qs_a o (scalar (rr 0))) /\
    forall i, refl_coef_qs (sample_at o i) (rr 0) = Ok (g i).
Proof.
  intros o H. destruct (refl_qs_elementwise o (scalar (rr 0)) H) as (g & V & E).
  exists g. split.
  - eapply vec_shapes; [|exact V]. cbn [shp scalar].
    rewrite (bshapes_incl [eps_shape o; t_shape o; []] ([] :: [eps_shape o; t_shape o])) by incl_solve.
    apply bshapes_nil_in.
  - intro i. rewrite <- E. rewrite entry_scalar. reflexivity.
Qed.

(** ** The sample methods as elementwise functions of the height *)
Definition value {A} (r : res (option A)) : option A := match r with Ok v => v | Raise _ => None end.
Lemma value_ok : forall A (r : res (option A)) v, r = Ok v -> r = Ok (value r).
Proof. intros A r v ->. reflexivity. Qed.

Lemma above_ok : forall lag D o n_lag i z, consistent o -> dflt (d_n_lag D) n_lag <> O ->
  refl_coef_qs_above_surf lag D (sample_at o i) z n_lag
  = Ok (value (refl_coef_qs_above_surf lag D (sample_at o i) z n_lag)).
Proof.
  intros lag D o n_lag i z Hc Hn. destruct (above_elementwise lag D o (scalar z) n_lag Hc Hn) as (g & _ & E).
  specialize (E i). rewrite entry_scalar in E. eapply value_ok, E.
Qed.
Lemma above_elem : forall lag D o n_lag, consistent o -> dflt (d_n_lag D) n_lag <> O ->
  elementwise [eps_shape o; t_shape o]
    (fun i z => value (refl_coef_qs_above_surf lag D (sample_at o i) z n_lag))
    (fun z => refl_coef_qs_above_surf_a lag D o z n_lag).
Proof.
  intros lag D o n_lag Hc Hn z. destruct (above_elementwise lag D o z n_lag Hc Hn) as (g & V & E).
  eapply vec_by; [exact V|isolve|isolve|]. intro i. cbn beta. rewrite E. reflexivity.
Qed.

Lemma image_ok : forall lag D o n_lag i z, consistent o -> dflt (d_n_lag D) n_lag <> O ->
  exists d b, image_depth_and_charge lag D (sample_at o i) z n_lag = Ok (d, b).
Proof.
  intros lag D o n_lag i z Hc Hn.
  destruct (image_elementwise lag D o (scalar z) n_lag Hc Hn) as (gd & gb & _ & _ & E).
  specialize (E i). rewrite entry_scalar in E. eauto.
Qed.
Definition fstv {A B} (r : res (option A * option B)) : option A := match r with Ok p => fst p | Raise _ => None end.
Definition sndv {A B} (r : res (option A * option B)) : option B := match r with Ok p => snd p | Raise _ => None end.

Lemma image_let : forall A lag D o n_lag zs gz z ts (h : list nat -> A) k,
  consistent o -> dflt (d_n_lag D) n_lag <> O ->
  vec zs gz (Ok z) -> incl (zs ++ [eps_shape o; t_shape o]) ts ->
  (forall d b,
     vec (zs ++ [eps_shape o; t_shape o])
       (fun i => fstv (image_depth_and_charge lag D (sample_at o i) (gz i) n_lag)) (Ok d) ->
     vec (zs ++ [eps_shape o; t_shape o])
       (fun i => sndv (image_depth_and_charge lag D (sample_at o i) (gz i) n_lag)) (Ok b) ->
     vec ts h (k (d, b))) ->
  vec ts h (let! p := image_depth_and_charge_a lag D o z n_lag in k p).
Proof.
  intros A lag D o n_lag zs gz z ts h k Hc Hn Vz I K.
  destruct (vec_ok _ _ _ _ Vz) as [Ez Hz].
  destruct (image_elementwise lag D o z n_lag Hc Hn) as (gd & gb & HN & HS & E).
  assert (ES : bshapes [eps_shape o; t_shape o; shp z] = bshapes (zs ++ [eps_shape o; t_shape o])).
  { change [eps_shape o; t_shape o; shp z] with ([eps_shape o; t_shape o] ++ [shp z]).
    rewrite (bshapes_subst _ _ _ Ez). apply bshapes_incl; isolve. }
  destruct (bshapes [eps_shape o; t_shape o; shp z]) as [S|] eqn:EB.
  - destruct HS as (d & b & Eq & Vd & Vb); [discriminate|]. rewrite Eq. cbn [rbind].
    apply K.
    + eapply vec_shapes; [rewrite EB; exact ES|].
      eapply vec_ext; [|exact Vd]. intro i. specialize (E i). rewrite Hz in E. cbn beta. rewrite E. reflexivity.
    + eapply vec_shapes; [rewrite EB; exact ES|].
      eapply vec_ext; [|exact Vb]. intro i. specialize (E i). rewrite Hz in E. cbn beta. rewrite E. reflexivity.
  - destruct (HN eq_refl) as (m & ->). cbn [rbind]. apply vec_none.
    eapply bshapes_none_incl; [exact I|]. symmetry. exact ES.
Qed.
