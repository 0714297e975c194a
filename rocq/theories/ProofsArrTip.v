(** * Broadcasting of demodulation (C48) *)
From Coq Require Import String Reals Lra Lia ZArith List Bool.
From Coquelicot Require Import Rcomplements Complex.
From Verif Require Import Num NumLemmas ModelBase ModelSample ModelTip NArr SpecArr NArrLemmas ModelObj
  ModelArr SpecObj ArrSample ProofsArr ProofsArr2 ModelArrTip.
Import ListNotations.
Open Scope R_scope.

(** ** Combinators *)
Lemma compatible_incl : forall ss ts, incl ss ts -> compatible ts -> compatible ss.
Proof. intros ss ts H C s t Hs Ht. apply C; apply H; assumption. Qed.
Lemma bshapes_none_incl : forall ss ts, incl ss ts -> bshapes ss = None -> bshapes ts = None.
Proof.
  intros ss ts H E. destruct (bshapes ts) as [T|] eqn:ET; [|reflexivity].
  exfalso. apply (bshapes_none _ E). eapply compatible_incl; [exact H|].
  eapply joint_compatible, bshapes_joint, ET.
Qed.
Lemma bshapes_none_iff : forall ss, bshapes ss = None <-> ~ compatible ss.
Proof.
  intro ss. split; [apply bshapes_none|]. intro H. destruct (bshapes ss) eqn:E; [|reflexivity].
  exfalso; apply H. eapply joint_compatible, bshapes_joint, E.
Qed.

(** [let! a := r in k a]: the operands of [r] are among those of the whole *)
Lemma vec_let : forall A B ss ts (g : list nat -> A) (h : list nat -> B) r k,
  vec ss g r -> incl ss ts -> (forall a, vec ss g (Ok a) -> vec ts h (k a)) ->
  vec ts h (let! a := r in k a).
Proof.
  intros A B ss ts g h r k V I K. destruct r as [a|e]; cbn [rbind]; [apply K, V|].
  apply vec_raise in V. destruct V as (N & m & ->). apply vec_none. eapply bshapes_none_incl; eassumption.
Qed.
Lemma vec_lift1 : forall A B (f : A -> B) ss g r,
  vec ss g r -> vec ss (fun i => f (g i)) (lift1 f r).
Proof. intros. apply vec_amap. assumption. Qed.
Lemma vec_lift2 : forall A B E (f : A -> B -> E) ss ts g h r1 r2,
  vec ss g r1 -> vec ts h r2 -> vec (ss ++ ts) (fun i => f (g i) (h i)) (lift2 f r1 r2).
Proof. intros. apply vec_amap2'; assumption. Qed.
Lemma vec_map : forall A B (f : A -> B) ss g a,
  vec ss g (Ok a) -> vec ss (fun i => f (g i)) (Ok (amap f a)).
Proof. intros A B f ss g a V. apply (vec_amap _ _ f) in V. exact V. Qed.
Lemma vec_map2 : forall A B E (f : A -> B -> E) ss ts g h a b,
  vec ss g (Ok a) -> vec ts h (Ok b) -> vec (ss ++ ts) (fun i => f (g i) (h i)) (amap2 f a b).
Proof. intros A B E f ss ts g h a b V W. apply (vec_amap2' _ _ _ f _ _ _ _ _ _ V W). Qed.
Lemma vec_by : forall A ss ts (g h : list nat -> A) r,
  vec ss g r -> incl ss ts -> incl ts ss -> (forall i, g i = h i) -> vec ts h r.
Proof. intros A ss ts g h r V I J E. eapply vec_ext; [exact E|]. eapply vec_incl; eassumption. Qed.
Lemma vec_darr : forall A (d : A) o,
  vec (shape_of o) (fun i => dflt d (at_index o i)) (Ok (darr d o)).
Proof.
  intros A d [a|]; cbn.
  - apply vec_arr.
  - exists (scalar d). repeat split.
Qed.
Lemma vec_scalar : forall A (x : A), vec [] (fun _ => x) (Ok (scalar x)).
Proof. intros. cbn. exists (scalar x). repeat split. Qed.
Lemma vec_ok : forall A ss (g : list nat -> A) a, vec ss g (Ok a) ->
  bshapes ss = Some (shp a) /\ forall i, entry a i = g i.
Proof.
  intros A ss g a V. unfold vec in V. destruct (bshapes ss) as [S|].
  - destruct V as (b & E & H1 & H2). injection E as <-. subst. auto.
  - destruct V as (m & V). discriminate.
Qed.

(** a function of an array that acts elementwise, applied to a computed array *)
Definition elementwise {A B} (ss : list (list nat)) (g : list nat -> A -> B) (f : arr A -> res (arr B)) : Prop :=
  forall x, vec (shp x :: ss) (fun i => g i (entry x i)) (f x).
Lemma vec_apply : forall A B ss ss1 g (f : arr A -> res (arr B)) hx x,
  elementwise ss g f -> vec ss1 hx (Ok x) -> vec (ss1 ++ ss) (fun i => g i (hx i)) (f x).
Proof.
  intros A B ss ss1 g f hx x F V. destruct (vec_ok _ _ _ _ V) as [E H].
  eapply vec_ext. { intro i. rewrite <- H. reflexivity. }
  eapply vec_shapes; [|exact (F x)].
  rewrite (bshapes_incl (shp x :: ss) (ss ++ [shp x])).
  - rewrite (bshapes_subst _ _ _ E). apply bshapes_incl; intros s; rewrite !in_app_iff; tauto.
  - intros s [<-|Hs]; apply in_or_app; cbn; auto.
  - intros s Hs. apply in_app_or in Hs. destruct Hs as [Hs|[<-|[]]]; [right|left]; auto.
Qed.

(** ** Demodulation *)

Lemma joint_length : forall ss S, bshapes ss = Some S -> length S = ndim_max ss.
Proof.
  intros ss. induction ss as [|a ss IH]; intros S E; cbn in *.
  - injection E as <-. reflexivity.
  - destruct (bshapes ss) as [T|]; [|discriminate]. apply bshape_spec in E.
    destruct E as [-> _]. rewrite (IH T eq_refl). reflexivity.
Qed.

Lemma vec_trapezoid0 : forall ss S n g r, bshapes ss = Some S ->
  vec (ss ++ [repeat 1 (length S) ++ [n]])%nat g r ->
  vec ss (fun i => trapezoid (map (fun k => g (bidx S i ++ [k])) (seq 0 n)))
      (let! a := r in Ok (trapezoid_axis0 a)).
Proof.
  intros ss Sh n g r E V. unfold vec in *. rewrite (pad_joint _ _ n E) in V. rewrite E.
  destruct V as (a & -> & Ha & Hg). cbn [rbind].
  eexists. split; [reflexivity|]. unfold trapezoid_axis0. cbn [shp]. rewrite Ha, removelast_last.
  split; [reflexivity|]. intro i. rewrite entry_bidx. cbn [at_ shp]. rewrite last_last.
  f_equal. apply map_ext_in. intros k Hk. apply in_seq in Hk.
  rewrite <- Hg, entry_bidx, Ha, bidx_app by apply bidx_length.
  rewrite bidx_idem. f_equal. f_equal. cbn [bidx hd]. destruct (Nat.eqb_spec n 1); [f_equal; lia|reflexivity].
Qed.

Lemma pad_shape_gen : forall A (d : A) l ss,
  shp (pad_for_broadcasting d l ss) = (repeat 1 (ndim_max ss) ++ [length l])%nat.
Proof. reflexivity. Qed.
Lemma pad_entry_gen : forall A (d : A) l ss Sh i k, length Sh = ndim_max ss -> (k < length l)%nat ->
  entry (pad_for_broadcasting d l ss) (bidx Sh i ++ [k]) = nth k l d.
Proof.
  intros A d l ss Sh i k HS H. rewrite entry_bidx, pad_shape_gen.
  rewrite bidx_app by (rewrite bidx_length, repeat_length; exact HS).
  unfold pad_for_broadcasting. cbn [at_]. cbn [bidx hd tl]. rewrite last_last.
  destruct (Nat.eqb_spec (length l) 1); [f_equal; lia|reflexivity].
Qed.

(** an elementwise function does not see axes in front of all its operands *)
Lemma elementwise_front : forall A B ss (g : list nat -> A -> B) f S, elementwise ss g f -> bshapes ss = Some S ->
  forall i j x, bidx S i = bidx S j -> g i x = g j x.
Proof.
  intros A B ss g f Sh F E i j x Hij. specialize (F (scalar x)). unfold vec in F. cbn [shp scalar] in F.
  rewrite bshapes_nil_in, E in F. destruct F as (a & _ & Ha & Hg).
  pose proof (Hg i) as Gi. pose proof (Hg j) as Gj. rewrite entry_scalar in Gi, Gj.
  rewrite <- Gi, <- Gj, !entry_bidx, Ha, Hij. reflexivity.
Qed.

(** value of a demodulation of a total function *)
Definition demod_value (h : R -> CV) (x_0 x_a : R) (n : Z) (N : nat) : CV :=
  (trapezoid (map (fun t => demod_integrand n (h (x_0 + cos t * x_a)%R) t) (thetas N)) / rc (INR N))%cv.
Lemma mapM_pure : forall A B (f : A -> res B) (h : A -> B) l, (forall x, f x = Ok (h x)) ->
  mapM f l = Ok (map h l).
Proof. intros A B f h l H. induction l as [|a l IH]; cbn; [reflexivity|]. rewrite H, IH. reflexivity. Qed.
Lemma combine_map_self : forall A B (f : A -> B) l, combine (map f l) l = map (fun x => (f x, x)) l.
Proof. intros A B f l. induction l; cbn; [reflexivity|]. f_equal; assumption. Qed.
Lemma demod_pure : forall D f h x_0 x_a n nt, (forall x, f x = Ok (h x)) ->
  demod D f x_0 x_a n nt = Ok (demod_value h x_0 x_a n (dflt (d_n_trapz D) nt)).
Proof.
  intros D f h x_0 x_a n nt H. unfold demod. rewrite H. cbn [rbind].
  rewrite (mapM_pure _ _ _ (fun t => h (x_0 + cos t * x_a)%R)) by (intro; apply H). cbn [rbind].
  rewrite combine_map_self, map_map. reflexivity.
Qed.
Lemma thetas_length : forall N, length (thetas N) = (N + 1)%nat.
Proof. intro N. unfold thetas. rewrite map_length, seq_length. reflexivity. Qed.

Lemma demod_elementwise : forall D ss g f x_0 x_a (n : arr Z) nt, elementwise ss g f ->
  vec ([shp x_0; shp x_a; shp n] ++ ss)
      (fun i => demod_value (g i) (entry x_0 i) (entry x_a i) (entry n i) (dflt (d_n_trapz D) nt))
      (demod_a D f x_0 x_a n nt).
Proof.
  intros D ss g f x0 xa n nt F. unfold demod_a. set (N := dflt (d_n_trapz D) nt).
  set (T := [shp x0; shp xa; shp n] ++ ss).
  eapply vec_let. { apply vec_map2; apply vec_arr. }
  { intros s Hs. unfold T. cbn in Hs |- *. tauto. }
  intros c Vc. eapply vec_let. { eapply vec_apply; [exact F|exact Vc]. }
  { intros s Hs. unfold T. cbn in Hs |- *. tauto. }
  intros fc Vfc. apply vec_ok in Vfc. destruct Vfc as [Efc _].
  set (theta := pad_for_broadcasting 0 (thetas N) [shp fc; shp n]).
  set (X := shp theta).
  assert (Vx : vec [shp x0; X; shp xa] (fun i => entry x0 i + cos (entry theta i) * entry xa i)
                 (lift2 Rplus (Ok x0) (amap2 (fun t a => cos t * a) theta xa))).
  { eapply vec_by; [apply vec_lift2; [apply vec_arr|apply vec_map2; apply vec_arr]|..];
      [incl_solve..|reflexivity]. }
  set (W := fun r => vec (T ++ [X]) (fun i =>
     demod_integrand (entry n i) (g i (entry x0 i + cos (entry theta i) * entry xa i)) (entry theta i)) r).
  assert (V : W (let! x := lift2 Rplus (Ok x0) (amap2 (fun t a => cos t * a) theta xa) in
                 let! fv := f x in
                 lift2 cmul (Ok fv)
                      (amap2 (fun k t => cexp (Some (0, - (IZR k * t))%R)) n theta))).
  { unfold W. eapply vec_let; [exact Vx| |].
    { intros s Hs. unfold T. rewrite in_app_iff. cbn in *. tauto. }
    intros x Vx'. eapply vec_let. { eapply vec_apply; [exact F|exact Vx']. }
    { intros s Hs. unfold T. rewrite !in_app_iff in *. cbn in *. tauto. }
    intros fv Vfv.
    eapply vec_by; [apply vec_lift2; [exact Vfv|apply vec_map2; apply vec_arr]|..]; [..|reflexivity].
    all: intros s Hs; unfold T, X in *; rewrite ?in_app_iff in *; cbn in *; rewrite ?in_app_iff in *; tauto. }
  unfold W in V. clear W.
  assert (Hsplit : forall r : res (arr CV),
     (let! integrand := r in Ok (amap (fun y => (y / rc (INR N))%cv) (trapezoid_axis0 integrand)))
     = lift1 (fun y => (y / rc (INR N))%cv) (let! a := r in Ok (trapezoid_axis0 a)))
    by (intros [a|e]; reflexivity).
  assert (Hassoc : forall (rx : res (arr R)) (e : res (arr CV)),
     (let! x := rx in let! fv := f x in let! integrand := lift2 cmul (Ok fv) e in
      Ok (amap (fun y => (y / rc (INR N))%cv) (trapezoid_axis0 integrand)))
     = lift1 (fun y => (y / rc (INR N))%cv)
         (let! a := (let! x := rx in let! fv := f x in lift2 cmul (Ok fv) e) in Ok (trapezoid_axis0 a))).
  { intros [x|e1] e; cbn [rbind]; [|reflexivity]. destruct (f x); cbn [rbind]; [|reflexivity].
    destruct e; cbn [lift2 rbind]; [destruct (amap2 cmul a a0)|]; reflexivity. }
  rewrite Hassoc. clear Hsplit Hassoc.
  destruct (bshapes T) as [Sh|] eqn:ET.
  2: { apply (bshapes_app_none_l T [X]) in ET as E2. unfold vec in V. rewrite E2 in V.
       destruct V as (m & Hm). rewrite Hm. apply vec_none, ET. }
  assert (HSh : length Sh = ndim_max [shp fc; shp n]).
  { assert (E3 : bshapes [shp fc; shp n] = Some Sh).
    { rewrite <- ET. rewrite (bshapes_incl [shp fc; shp n] ([shp n] ++ [shp fc])) by incl_solve.
      rewrite (bshapes_subst [shp n] _ _ Efc). unfold T.
      apply bshapes_incl; intros s Hs; rewrite ?in_app_iff in *; cbn in *; rewrite ?in_app_iff in *; cbn in *; tauto. }
    apply joint_length, E3. }
  assert (HX : X = (repeat 1 (length Sh) ++ [length (thetas N)])%nat).
  { unfold X, theta. rewrite pad_shape_gen, HSh. reflexivity. }
  rewrite HX in V.
  assert (Fs : forall s, In s T -> fits s Sh) by (intros s Hs; eapply bshapes_fits; eassumption).
  assert (Ess : exists Z, bshapes ss = Some Z).
  { destruct (bshapes ss) eqn:E; [eauto|]. apply (bshapes_none_incl ss T) in E; [congruence|].
    intros s Hs. unfold T. cbn. tauto. }
  destruct Ess as [Zs Ess].
  assert (Fz : fits Zs Sh).
  { assert (EZ : bshapes ([shp x0; shp xa; shp n] ++ [Zs]) = Some Sh)
      by (rewrite (bshapes_subst _ _ _ Ess); exact ET).
    eapply bshapes_fits; [exact EZ|]. cbn. tauto. }
  eapply vec_ext; [|apply vec_lift1, (vec_trapezoid0 _ _ _ _ _ ET V)].
  intro i. unfold demod_value. cbn beta. f_equal. f_equal.
  rewrite <- (map_nth_seq _ _ (fun t => demod_integrand (entry n i) (g i (entry x0 i + cos t * entry xa i)) t) (thetas N) 0).
  apply map_ext_in. intros k Hk. apply in_seq in Hk.
  assert (Ht : entry theta (bidx Sh i ++ [k]) = nth k (thetas N) 0)
    by (apply pad_entry_gen; [exact HSh|lia]).
  rewrite Ht, !(entry_in_front _ _ Sh) by (apply Fs; unfold T; cbn; tauto).
  f_equal. apply (elementwise_front _ _ _ _ _ _ F Ess).
  rewrite bidx_prefix by (rewrite bidx_length; apply Fz). apply bidx_fits, Fz.
Qed.
