(** * From the model's matrix chains to pure complex 2x2 matrices *)
From Coq Require Import String Reals Lra Lia ZArith List Bool.
From Coquelicot Require Import Rcomplements Complex.
From Verif Require Import Num NumLemmas ModelBase ModelSample.
Import ListNotations.
Open Scope R_scope.

(** ** Pure matrices *)
Record cmat := mkC { c00 : C; c01 : C; c10 : C; c11 : C }.
Definition lift (A : cmat) : mat :=
  mkMat (Some (c00 A)) (Some (c01 A)) (Some (c10 A)) (Some (c11 A)).
Definition pmul (A B : cmat) : cmat :=
  {| c00 := c00 A * c00 B + c01 A * c10 B;
     c01 := c00 A * c01 B + c01 A * c11 B;
     c10 := c10 A * c00 B + c11 A * c10 B;
     c11 := c10 A * c01 B + c11 A * c11 B |}%C.
Definition pI : cmat := mkC (RtoC 1) (RtoC 0) (RtoC 0) (RtoC 1).
Definition pT (x : C) : cmat :=
  {| c00 := (1 + x) / 2; c01 := (1 - x) / 2; c10 := (1 - x) / 2; c11 := (1 + x) / 2 |}%C.
Definition pP (a b : C) : cmat := mkC a (RtoC 0) (RtoC 0) b.
Arguments pT x%C_scope. Arguments pP (a b)%C_scope.
Definition det (A : cmat) : C := (c00 A * c11 A - c01 A * c10 A)%C.

Lemma cmat_eq A B : c00 A = c00 B -> c01 A = c01 B -> c10 A = c10 B -> c11 A = c11 B -> A = B.
Proof. destruct A, B; simpl; intros -> -> -> ->; reflexivity. Qed.

Lemma pmul_assoc A B D : pmul (pmul A B) D = pmul A (pmul B D).
Proof. apply cmat_eq; simpl; ring. Qed.
Lemma pmul_I_l A : pmul pI A = A.
Proof. apply cmat_eq; simpl; ring. Qed.
Lemma pmul_I_r A : pmul A pI = A.
Proof. apply cmat_eq; simpl; ring. Qed.
Lemma det_mul A B : det (pmul A B) = (det A * det B)%C.
Proof. unfold det. simpl. ring. Qed.
Lemma det_pT x : det (pT x) = x.
Proof. unfold det. simpl. field. auto. Qed.
Lemma det_pP a b : det (pP a b) = (a * b)%C.
Proof. unfold det. simpl. ring. Qed.
Lemma pT_mul a b : pmul (pT a) (pT b) = pT (a * b).
Proof. apply cmat_eq; simpl; field; auto. Qed.
Lemma pT_1 : pT 1 = pI.
Proof. apply cmat_eq; simpl; field; auto. Qed.
Lemma pP_mul a b a' b' : pmul (pP a b) (pP a' b') = pP (a * a') (b * b').
Proof. apply cmat_eq; simpl; ring. Qed.
Lemma pP_1 : pP 1 1 = pI.
Proof. reflexivity. Qed.

(** ** Lifting *)
Lemma mmul_lift A B : mmul (lift A) (lift B) = lift (pmul A B).
Proof. reflexivity. Qed.
Lemma trans_matrix_Some x : trans_matrix (Some x) = lift (pT x).
Proof.
  unfold trans_matrix, lift, rc, cadd, cmul. simpl.
  rewrite !cdiv_ok by auto.
  f_equal; f_equal; simpl; field; auto.
Qed.
Lemma prop_matrix_Some a b : prop_matrix (Some a) (Some b) = lift (pP a b).
Proof. unfold prop_matrix, lift, rc, cmul. simpl. f_equal; f_equal; ring. Qed.

Definition bad : mat := mkMat None None None None.
Lemma trans_matrix_None : trans_matrix None = bad.
Proof. reflexivity. Qed.
Lemma prop_matrix_None : prop_matrix None None = bad.
Proof. reflexivity. Qed.
Lemma mmul_bad_l A : mmul bad A = bad.
Proof. reflexivity. Qed.
Lemma mmul_bad_r A : mmul A bad = bad.
Proof. destruct A as [[] [] [] []]; reflexivity. Qed.

Lemma chain_bad l : chain bad l = bad.
Proof. induction l; simpl; auto. Qed.

Definition liftp (p : cmat * cmat) : mat * mat := (lift (fst p), lift (snd p)).
Definition pchain (M : cmat) (l : list (cmat * cmat)) : cmat :=
  fold_left (fun M tp => pmul (pmul M (snd tp)) (fst tp)) l M.
Lemma chain_lift l : forall M, chain (lift M) (map liftp l) = lift (pchain M l).
Proof.
  induction l as [|a l IH]; intros M; [reflexivity|].
  exact (IH (pmul (pmul M (snd a)) (fst a))).
Qed.
Lemma pchain_mul l : forall M, pchain M l = pmul M (pchain pI l).
Proof.
  induction l as [|a l IH]; intros M; simpl.
  - now rewrite pmul_I_r.
  - fold (pchain (pmul (pmul M (snd a)) (fst a)) l). fold (pchain (pmul (pmul pI (snd a)) (fst a)) l).
    rewrite IH, (IH (pmul (pmul pI _) _)), pmul_I_l, !pmul_assoc. reflexivity.
Qed.

(** ** Structured stacks

    A stack is an environment, a list of inner (material, thickness) layers
    and a substrate; [stackM] is the product of interface matrices [T] and
    propagation matrices [P] from top to bottom. *)
Section Stack.
Context {L : Type} (T : L -> L -> cmat) (P : L -> R -> cmat).
Fixpoint stackM (l0 : L) (inner : list (L * R)) (ln : L) : cmat :=
  match inner with
  | [] => T l0 ln
  | (l, t) :: rest => pmul (T l0 l) (pmul (P l t) (stackM l rest ln))
  end.
(** list of (T, P) pairs after the first interface *)
Fixpoint stackTP (l0 : L) (inner : list (L * R)) (ln : L) : list (cmat * cmat) :=
  match inner with
  | [] => []
  | (l, t) :: rest =>
      (match rest with [] => T l ln | (l', _) :: _ => T l l' end, P l t) :: stackTP l rest ln
  end.
Definition firstT (l0 : L) (inner : list (L * R)) (ln : L) : cmat :=
  match inner with [] => T l0 ln | (l, _) :: _ => T l0 l end.

Lemma stackM_chain inner : forall l0 ln,
  stackM l0 inner ln = pchain (firstT l0 inner ln) (stackTP l0 inner ln).
Proof.
  induction inner as [|[l t] rest IH]; intros l0 ln; [reflexivity|].
  cbn [stackM stackTP firstT]. fold (firstT l rest ln).
  rewrite pchain_mul. cbn [pchain fold_left fst snd].
  fold (pchain (pmul (pmul pI (P l t)) (firstT l rest ln)) (stackTP l rest ln)).
  rewrite (pchain_mul _ (pmul _ _)), IH, (pchain_mul _ (firstT l rest ln)).
  rewrite pmul_I_l, !pmul_assoc. reflexivity.
Qed.
End Stack.

(** ** The model's stacks as structured stacks *)
Definition eps_of {L} (e0 : L) (inner : list (L * R)) (en : L) : list L :=
  e0 :: map fst inner ++ [en].

Lemma stack_decomp {L} (es : list L) (ts : list R) :
  length es = (length ts + 2)%nat ->
  exists e0 inner en, es = eps_of e0 inner en /\ ts = map snd inner.
Proof.
  unfold eps_of. intros H. destruct es as [|e0 es]; [simpl in H; lia|].
  exists e0. simpl in H. assert (H' : length es = S (length ts)) by lia. clear H.
  revert es H'. induction ts as [|t ts IH]; intros es H.
  - destruct es as [|e [|? ?]]; simpl in H; try lia. exists [], e. auto.
  - destruct es as [|e es]; simpl in H; [lia|].
    destruct (IH es) as (inner & en & E & ->); [lia|].
    injection E as ->.
    exists ((e, t) :: inner), en. auto.
Qed.

Lemma eps_of_length {L} (e0 : L) inner en : length (eps_of e0 inner en) = (length inner + 2)%nat.
Proof. unfold eps_of. simpl. rewrite app_length, map_length. simpl. lia. Qed.

Lemma map_eps_of {L K} (f : L -> K) e0 inner en :
  map f (eps_of e0 inner en) = f e0 :: map f (map fst inner) ++ [f en].
Proof. unfold eps_of. simpl. rewrite map_app. reflexivity. Qed.

Lemma combine_map_same {A B D} (f : A -> B) (g : A -> D) l :
  combine (map f l) (map g l) = map (fun x => (f x, g x)) l.
Proof. induction l; simpl; congruence. Qed.

Lemma removelast_cons2 {A} (a b : A) l : removelast (a :: b :: l) = a :: removelast (b :: l).
Proof. reflexivity. Qed.
Lemma removelast_snoc {A} (l : list A) x : removelast (l ++ [x]) = l.
Proof. rewrite removelast_app by discriminate. simpl. apply app_nil_r. Qed.

Section Generic.
Context (F : CV -> CV -> mat) (G : CV -> R -> mat).
Context (T : C -> C -> cmat) (P : C -> R -> cmat) (ok : C -> C -> Prop).
Context (HF : forall a b, ok a b -> F (Some a) (Some b) = lift (T a b)).
Context (HG : forall a t, G (Some a) t = lift (P a t)).

Fixpoint okstack (e0 : C) (inner : list (C * R)) (en : C) : Prop :=
  match inner with
  | [] => ok e0 en
  | (e, _) :: rest => ok e0 e /\ okstack e rest en
  end.

Lemma generic_T inner : forall e0 en, okstack e0 inner en ->
  map (fun p => F (fst p) (snd p))
      (combine (removelast (map Some (eps_of e0 inner en))) (tl (map Some (eps_of e0 inner en))))
  = lift (firstT T e0 inner en) :: map (fun tp => lift (fst tp)) (stackTP T P e0 inner en).
Proof.
  induction inner as [|[e t] rest IH]; intros e0 en Hok.
  - simpl in *. rewrite HF by exact Hok. reflexivity.
  - destruct Hok as [H1 H2]. specialize (IH e en H2).
    cbn [stackTP map fst firstT]. fold (firstT T e rest en).
    unfold eps_of in *. cbn [map fst app] in *. rewrite removelast_cons2.
    cbn [tl combine map fst snd] in *. rewrite HF by exact H1. f_equal. exact IH.
Qed.

Lemma generic_P inner : forall e0 en,
  map (fun p => G (fst p) (snd p))
      (combine (removelast (tl (map Some (eps_of e0 inner en)))) (map snd inner))
  = map (fun tp => lift (snd tp)) (stackTP T P e0 inner en).
Proof.
  intros e0 en. unfold eps_of. simpl tl. rewrite map_app. simpl (map Some [en]).
  rewrite removelast_snoc.
  revert e0. induction inner as [|[e t] rest IH]; intros e0; [reflexivity|].
  cbn [map combine fst snd stackTP]. rewrite HG. f_equal. apply IH.
Qed.
End Generic.

Lemma generic_chain (T : C -> C -> cmat) (P : C -> R -> cmat) e0 inner en :
  chain (lift (firstT T e0 inner en))
        (combine (map (fun tp => lift (fst tp)) (stackTP T P e0 inner en))
                 (map (fun tp => lift (snd tp)) (stackTP T P e0 inner en)))
  = lift (stackM T P e0 inner en).
Proof.
  rewrite combine_map_same.
  change (fun x => (lift (fst x), lift (snd x))) with liftp.
  rewrite chain_lift, stackM_chain. reflexivity.
Qed.

(** *** Quasistatic *)
Definition clipR (x : R) : R := Rmin (Rmax x (- MAX_EXP_ARG)) MAX_EXP_ARG.
Definition Tqs (a b : C) : cmat := pT (a / b).
Definition Pqs (q : R) (_ : C) (t : R) : cmat :=
  pP (RtoC (exp (clipR (q * t)))) (RtoC (exp (- clipR (q * t)))).
Definition Mqs (q : R) := stackM Tqs (Pqs q).

Definition qs_sample e0 inner en nu : sample :=
  mkSample (map Some (eps_of e0 inner en)) (map snd inner) nu.

Lemma okstack_nonzero inner : forall e0 en,
  Forall (fun e => e <> RtoC 0) (map fst inner ++ [en]) ->
  okstack (fun _ b => b <> RtoC 0) e0 inner en.
Proof.
  induction inner as [|[e t] rest IH]; intros e0 en H; simpl in *.
  - now inversion H.
  - inversion H; subst. split; auto.
Qed.

Lemma multilayer_struct e0 inner en nu :
  multilayer (qs_sample e0 inner en nu) = match inner with [] => false | _ => true end.
Proof.
  unfold multilayer, n_layers, qs_sample. cbn [eps_stack].
  rewrite map_length, eps_of_length. destruct inner; simpl; [reflexivity|].
  apply Nat.ltb_lt. lia.
Qed.

Lemma transfer_matrix_qs_struct e0 inner en nu q :
  Forall (fun e => e <> RtoC 0) (map fst inner ++ [en]) ->
  transfer_matrix_qs (qs_sample e0 inner en nu) (rr q) = Ok (lift (Mqs q e0 inner en)).
Proof.
  intros H. unfold transfer_matrix_qs. rewrite multilayer_struct.
  unfold trans_matrices_qs. cbn [eps_stack qs_sample].
  rewrite (generic_T (fun a b => trans_matrix (a / b)%cv) Tqs (Pqs q) (fun _ b => b <> RtoC 0)).
  2:{ intros a b Hb. rewrite cdiv_ok by exact Hb. apply trans_matrix_Some. }
  2:{ apply okstack_nonzero. exact H. }
  destruct inner as [|p inner'].
  - simpl. f_equal. unfold lift, rc, cmul. simpl. f_equal; f_equal; ring.
  - replace (prop_matrices_qs _ _) with
      (map (fun tp : cmat * cmat => lift (snd tp)) (stackTP Tqs (Pqs q) e0 (p :: inner') en)).
    + rewrite generic_chain. reflexivity.
    + rewrite <- (generic_P (fun _ t => prop_matrix (cexp (ofR (rr 1 * clip (rr q * rr t))%rv))
                              (cexp (ofR (rr (-1) * clip (rr q * rr t))%rv))) Tqs (Pqs q)).
      * unfold prop_matrices_qs, qs_sample, eps_of. cbn [t_stack].
        generalize (p :: inner'). intros inner.
        simpl tl. rewrite map_app. simpl (map Some [en]). rewrite removelast_snoc.
        induction inner as [|[e t] rest IH]; [reflexivity|].
        cbn [map combine fst snd]. f_equal. apply IH.
      * intros a t. unfold Pqs. rewrite <- prop_matrix_Some. unfold clip, rr, rmul, ofR, cexp.
        cbn [olift1 olift2]. fold (clipR (q * t)).
        rewrite !Cexp_R. f_equal; f_equal; f_equal; f_equal; ring.
Qed.

Lemma refl_coef_qs_struct e0 inner en nu q :
  Forall (fun e => e <> RtoC 0) (map fst inner ++ [en]) ->
  refl_coef_qs (qs_sample e0 inner en nu) (rr q)
  = Ok (Some (c10 (Mqs q e0 inner en)) / Some (c00 (Mqs q e0 inner en)))%cv.
Proof. intros H. unfold refl_coef_qs. rewrite transfer_matrix_qs_struct by exact H. reflexivity. Qed.
Lemma trans_coef_qs_struct e0 inner en nu q :
  Forall (fun e => e <> RtoC 0) (map fst inner ++ [en]) ->
  trans_coef_qs (qs_sample e0 inner en nu) (rr q)
  = Ok (rc 1 / Some (c00 (Mqs q e0 inner en)))%cv.
Proof. intros H. unfold trans_coef_qs. rewrite transfer_matrix_qs_struct by exact H. reflexivity. Qed.

(** *** Far field *)
Definition kz (nu q : R) (e : C) : C := Csqrt (e * RtoC (nu ^ 2) - RtoC (q ^ 2))%C.
Definition ffactor (pol_p : bool) (nu q : R) (a b : C) : C :=
  if pol_p then (a * kz nu q b / (b * kz nu q a))%C else (kz nu q b / kz nu q a)%C.
Definition Tff (pol_p : bool) (nu q : R) (a b : C) : cmat := pT (ffactor pol_p nu q a b).
Definition Pff (nu q : R) (e : C) (t : R) : cmat :=
  pP (Cexp ((0, -1)%R * (kz nu q e * RtoC t)))%C (Cexp ((0, 1)%R * (kz nu q e * RtoC t)))%C.
Definition Mff pol_p nu q := stackM (Tff pol_p nu q) (Pff nu q).
Definition okff (pol_p : bool) (nu q : R) (a b : C) : Prop :=
  kz nu q a <> RtoC 0 /\ (pol_p = true -> b <> RtoC 0).

Definition pol_str (pol_p : bool) : string := if pol_p then "p"%string else "s"%string.

Lemma map_seq_consec {A B} (H : A -> A -> B) (d : A) (l : list A) :
  map (fun i => H (nth i l d) (nth (i + 1) l d)) (seq 0 (length l - 1))
  = map (fun p => H (fst p) (snd p)) (combine (removelast l) (tl l)).
Proof.
  destruct l as [|a l]; [reflexivity|]. cbn [length tl]. rewrite Nat.sub_succ, Nat.sub_0_r.
  revert a. induction l as [|b l IH]; intros a; [reflexivity|].
  rewrite removelast_cons2. cbn [length seq combine map fst snd].
  f_equal. rewrite <- (IH b). rewrite <- seq_shift, map_map. apply map_ext. intros i. reflexivity.
Qed.

Lemma nu_z_of_Some nu q e : nu_z_of nu q (Some e) = Some (kz nu q e).
Proof. reflexivity. Qed.

Lemma transfer_matrix_struct e0 inner en nu0 (pol_p : bool) qarg th nuarg nu q :
  resolve_nu (qs_sample e0 inner en nu0) nuarg = Ok nu ->
  resolve_q nu qarg th = Ok q ->
  okstack (okff pol_p nu q) e0 inner en ->
  transfer_matrix (qs_sample e0 inner en nu0) qarg th nuarg (pol_str pol_p)
  = Ok (lift (Mff pol_p nu q e0 inner en)).
Proof.
  intros Hnu Hq Hok. unfold transfer_matrix. rewrite Hnu. cbn [rbind]. rewrite Hq. cbn [rbind].
  rewrite multilayer_struct. unfold n_layers. cbn [eps_stack qs_sample].
  set (E := map Some (eps_of e0 inner en)).
  assert (HE : @length CV E = (length inner + 2)%nat) by (unfold E; rewrite map_length; apply eps_of_length).
  rewrite HE. destruct (Nat.eqb_spec (length inner + 2) 0); [lia|].
  rewrite <- HE.
  replace (if String.eqb (pol_str pol_p) "p" then _ else _) with (Ok pol_p)
    by (destruct pol_p; reflexivity).
  cbn [rbind].
  set (F := fun a b : CV => trans_matrix
     (if pol_p then a * nu_z_of nu q b / (b * nu_z_of nu q a) else nu_z_of nu q b / nu_z_of nu q a)%cv).
  replace (map trans_matrix _) with
    (map (fun p => F (fst p) (snd p)) (combine (removelast E) (tl E))).
  2:{ rewrite <- (map_seq_consec F None). rewrite map_map. apply map_ext. intros i.
      unfold F, trans_factor.
      assert (Hn : forall j, nth j (map (nu_z_of nu q) E) None = nu_z_of nu q (nth j E None))
        by (intros j; exact (map_nth (nu_z_of nu q) E None j)).
      rewrite !Hn. destruct pol_p; reflexivity. }
  unfold E.
  rewrite (generic_T F (Tff pol_p nu q) (Pff nu q) (okff pol_p nu q)).
  2:{ intros a b [H1 H2]. unfold F. rewrite !nu_z_of_Some. unfold Tff, ffactor. destruct pol_p.
      - change (Some b * Some (kz nu q a))%cv with (Some (b * kz nu q a)%C).
        change (Some a * Some (kz nu q b))%cv with (Some (a * kz nu q b)%C).
        rewrite cdiv_ok by auto. apply trans_matrix_Some.
      - rewrite cdiv_ok by auto. apply trans_matrix_Some. }
  2:{ exact Hok. }
  destruct inner as [|p inner'].
  - reflexivity.
  - replace (map _ (combine (removelast (tl (map (nu_z_of nu q) _))) _)) with
      (map (fun tp : cmat * cmat => lift (snd tp)) (stackTP (Tff pol_p nu q) (Pff nu q) e0 (p :: inner') en)).
    + rewrite generic_chain. reflexivity.
    + rewrite <- (generic_P (fun e t => prop_matrix (cexp (Some (0, -1)%R * (nu_z_of nu q e * rc t))%cv)
                              (cexp (Some (0, 1)%R * (nu_z_of nu q e * rc t))%cv)) (Tff pol_p nu q) (Pff nu q)).
      * unfold eps_of. cbn [t_stack qs_sample].
        generalize (p :: inner'). intros inner.
        simpl tl. rewrite !map_app. simpl (map Some [en]). simpl (map (nu_z_of nu q) [_]).
        rewrite !removelast_snoc.
        induction inner as [|[e t] rest IH]; [reflexivity|].
        cbn [map combine fst snd]. f_equal. apply IH.
      * intros a t. unfold Pff. rewrite <- prop_matrix_Some. reflexivity.
Qed.

Lemma refl_coef_struct e0 inner en nu0 (pol_p : bool) qarg th nuarg nu q :
  resolve_nu (qs_sample e0 inner en nu0) nuarg = Ok nu ->
  resolve_q nu qarg th = Ok q ->
  okstack (okff pol_p nu q) e0 inner en ->
  refl_coef (qs_sample e0 inner en nu0) qarg th nuarg (pol_str pol_p)
  = Ok (Some (c10 (Mff pol_p nu q e0 inner en)) / Some (c00 (Mff pol_p nu q e0 inner en)))%cv.
Proof.
  intros H1 H2 H3. unfold refl_coef. rewrite (transfer_matrix_struct _ _ _ _ _ _ _ _ nu q) by assumption.
  reflexivity.
Qed.
Lemma trans_coef_struct e0 inner en nu0 (pol_p : bool) qarg th nuarg nu q :
  resolve_nu (qs_sample e0 inner en nu0) nuarg = Ok nu ->
  resolve_q nu qarg th = Ok q ->
  okstack (okff pol_p nu q) e0 inner en ->
  trans_coef (qs_sample e0 inner en nu0) qarg th nuarg (pol_str pol_p)
  = Ok (rc 1 / Some (c00 (Mff pol_p nu q e0 inner en)))%cv.
Proof.
  intros H1 H2 H3. unfold trans_coef. rewrite (transfer_matrix_struct _ _ _ _ _ _ _ _ nu q) by assumption.
  reflexivity.
Qed.
