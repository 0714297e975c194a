(** * Lemmas about the numeric domain (proofs only) *)
From Coq Require Import String Reals Lra Lia ZArith List Bool Field Ring.
From Coquelicot Require Import Rcomplements Complex.
From Verif Require Import Num.
Import ListNotations.
Open Scope R_scope.

#[global] Arguments cdiv : simpl never.
#[global] Arguments rdiv : simpl never.
#[global] Arguments rln : simpl never.
#[global] Arguments Ceq_dec _%C_scope _%C_scope.
(** ** Inversion of poisoned operations *)
Lemma olift2_Some {A B D} (f : A -> B -> D) x y z :
  olift2 f x y = Some z <-> exists a b, x = Some a /\ y = Some b /\ z = f a b.
Proof.
  destruct x, y; simpl; split; intros H; try discriminate.
  - injection H as <-. eauto.
  - destruct H as (a' & b' & [= ->] & [= ->] & ->). reflexivity.
  - destruct H as (a' & b' & _ & H & _); discriminate.
  - destruct H as (a' & b' & H & _); discriminate.
  - destruct H as (a' & b' & H & _); discriminate.
Qed.

Lemma olift1_Some {A B} (f : A -> B) x z :
  olift1 f x = Some z <-> exists a, x = Some a /\ z = f a.
Proof.
  destruct x; simpl; split; intros H; try discriminate.
  - injection H as <-. eauto.
  - destruct H as (a' & [= ->] & ->). reflexivity.
  - destruct H as (a' & H & _); discriminate.
Qed.

Lemma cdiv_Some x y z :
  cdiv x y = Some z <->
  exists a b, x = Some a /\ y = Some b /\ b <> RtoC 0 /\ z = (a / b)%C.
Proof.
  unfold cdiv; destruct x as [a|], y as [b|]; split; intros H; try discriminate.
  - destruct (Ceq_dec b 0) as [E|E]; [discriminate|]. injection H as <-. eauto 8.
  - destruct H as (a' & b' & [= ->] & [= ->] & Hn & ->).
    destruct (Ceq_dec b' 0) as [E|E]; [contradiction|reflexivity].
  - destruct H as (a' & b' & _ & H & _); discriminate.
  - destruct H as (a' & b' & H & _); discriminate.
  - destruct H as (a' & b' & H & _); discriminate.
Qed.

Lemma rdiv_Some x y z :
  rdiv x y = Some z <->
  exists a b, x = Some a /\ y = Some b /\ b <> 0 /\ z = (a / b).
Proof.
  unfold rdiv; destruct x as [a|], y as [b|]; split; intros H; try discriminate.
  - destruct (Req_EM_T b 0) as [E|E]; [discriminate|]. injection H as <-. eauto 8.
  - destruct H as (a' & b' & [= ->] & [= ->] & Hn & ->).
    destruct (Req_EM_T b' 0) as [E|E]; [contradiction|reflexivity].
  - destruct H as (a' & b' & _ & H & _); discriminate.
  - destruct H as (a' & b' & H & _); discriminate.
  - destruct H as (a' & b' & H & _); discriminate.
Qed.

Lemma rln_Some x z :
  rln x = Some z <-> exists a, x = Some a /\ 0 < a /\ z = ln a.
Proof.
  unfold rln; destruct x as [a|]; split; intros H; try discriminate.
  - destruct (Rlt_dec 0 a); [|discriminate]. injection H as <-. eauto.
  - destruct H as (a' & [= ->] & Hp & ->). destruct (Rlt_dec 0 a'); [reflexivity|contradiction].
  - destruct H as (a' & H & _); discriminate.
Qed.

Lemma cdiv_ok a b : b <> RtoC 0 -> cdiv (Some a) (Some b) = Some (a / b)%C.
Proof. intros H. apply cdiv_Some. eauto 8. Qed.
Lemma rdiv_ok a b : b <> 0 -> rdiv (Some a) (Some b) = Some (a / b).
Proof. intros H. apply rdiv_Some. eauto 8. Qed.
Lemma rln_ok a : 0 < a -> rln (Some a) = Some (ln a).
Proof. intros H. apply rln_Some. eauto 8. Qed.
Lemma cdiv_zero a : cdiv a (Some (RtoC 0)) = None.
Proof. unfold cdiv. destruct a; auto. destruct (Ceq_dec 0 0); congruence. Qed.
Lemma cdiv_None_r a : cdiv a None = None.
Proof. destruct a; reflexivity. Qed.
Lemma cmul_None_r a : cmul a None = None.
Proof. destruct a; reflexivity. Qed.
Lemma cadd_None_r a : cadd a None = None.
Proof. destruct a; reflexivity. Qed.
Lemma csub_None_r a : csub a None = None.
Proof. destruct a; reflexivity. Qed.

(** Turn a hypothesis [op ... = Some z] into equations on the operands. *)
Ltac vinv H :=
  repeat match type of H with
  | cdiv _ _ = Some _ => let a := fresh "a" in let b := fresh "b" in
      let Ha := fresh "Ha" in let Hb := fresh "Hb" in let Hn := fresh "Hn" in
      apply cdiv_Some in H; destruct H as (a & b & Ha & Hb & Hn & H)
  end.

(** ** Complex field, with integer literals and powers known to [ring]/[field] *)
Lemma C_morph : ring_morph (RtoC 0) (RtoC 1) Cplus Cmult Cminus Copp eq
   0%Z 1%Z Z.add Z.mul Z.sub Z.opp Zeq_bool (fun z => RtoC (IZR z)).
Proof.
  constructor; intros; try reflexivity; unfold RtoC.
  - rewrite plus_IZR. unfold Cplus; simpl; f_equal; ring.
  - rewrite minus_IZR. unfold Cminus, Cplus, Copp; simpl; f_equal; ring.
  - rewrite mult_IZR. unfold Cmult; simpl; f_equal; ring.
  - rewrite opp_IZR. unfold Copp; simpl; f_equal; ring.
  - apply Zeq_bool_eq in H. now subst.
Qed.
Lemma Cpown_add (r : C) a b : Cpown r (a + b) = (Cpown r a * Cpown r b)%C.
Proof. induction a; simpl; [ring|]. rewrite IHa. ring. Qed.
Lemma Cpow_th : power_theory (RtoC 1) Cmult (@eq C) N.to_nat Cpown.
Proof.
  constructor. intros r [|p]; [reflexivity|]. cbn [N.to_nat pow_N].
  induction p; cbn [pow_pos].
  - rewrite <- IHp, Pos2Nat.inj_xI. cbn [Cpown].
    replace (2 * Pos.to_nat p)%nat with (Pos.to_nat p + Pos.to_nat p)%nat by lia.
    rewrite Cpown_add. ring.
  - rewrite <- IHp, Pos2Nat.inj_xO.
    replace (2 * Pos.to_nat p)%nat with (Pos.to_nat p + Pos.to_nat p)%nat by lia.
    rewrite Cpown_add. ring.
  - change (Pos.to_nat 1) with 1%nat. cbn [Cpown]. ring.
Qed.
Ltac Ccst t :=
  match t with
  | RtoC (IZR ?z) => match isZcst z with true => z | _ => constr:(NotConstant) end
  | _ => constr:(NotConstant)
  end.
Ltac Cpow_tac t := match isnatcst t with true => constr:(N.of_nat t) | _ => constr:(NotConstant) end.
Add Field Cf2 : C_field_theory (morphism C_morph, constants [Ccst], power_tac Cpow_th [Cpow_tac]).

Lemma C_neq_0 (a b : R) : a <> 0 \/ b <> 0 -> (a, b) <> RtoC 0.
Proof. intros H E. injection E as -> ->. lra. Qed.
Lemma RtoC_neq_0 (a : R) : a <> 0 -> RtoC a <> RtoC 0.
Proof. intros H. apply C_neq_0. auto. Qed.
Lemma RtoC_inj (a b : R) : RtoC a = RtoC b -> a = b.
Proof. intros H. now injection H. Qed.
Lemma Cmult_neq_0 (a b : C) : a <> RtoC 0 -> b <> RtoC 0 -> (a * b)%C <> RtoC 0.
Proof.
  intros Ha Hb E. apply Ha.
  replace a with (a * b / b)%C by (field; exact Hb). rewrite E. field. exact Hb.
Qed.
Lemma Cmult_integral (a b : C) : (a * b)%C = RtoC 0 -> a = RtoC 0 \/ b = RtoC 0.
Proof.
  intros H. destruct (Ceq_dec a 0); auto. destruct (Ceq_dec b 0); auto.
  exfalso. exact (Cmult_neq_0 a b n n0 H).
Qed.
Lemma Cmult_neq_0_l (a b : C) : (a * b)%C <> RtoC 0 -> a <> RtoC 0.
Proof. intros H ->. apply H. ring. Qed.
Lemma Cmult_neq_0_r (a b : C) : (a * b)%C <> RtoC 0 -> b <> RtoC 0.
Proof. intros H ->. apply H. ring. Qed.
Lemma Cdiv_eq (a b z : C) : b <> RtoC 0 -> a = (z * b)%C -> (a / b)%C = z.
Proof. intros H ->. field. exact H. Qed.
Lemma Cdiv_neq_0 (a b : C) : a <> RtoC 0 -> b <> RtoC 0 -> (a / b)%C <> RtoC 0.
Proof. intros Ha Hb E. apply Ha. replace a with (a / b * b)%C by (field; auto). rewrite E. ring. Qed.
Lemma C2_neq_0 : RtoC 2 <> RtoC 0.
Proof. apply RtoC_neq_0. lra. Qed.
Lemma C1_neq_0 : RtoC 1 <> RtoC 0.
Proof. apply RtoC_neq_0. lra. Qed.
#[global] Hint Resolve C2_neq_0 C1_neq_0 Cmult_neq_0 RtoC_neq_0 : core.

Lemma C_eq (a b : C) : Re a = Re b -> Im a = Im b -> a = b.
Proof. destruct a, b. unfold Re, Im. simpl. intros -> ->. reflexivity. Qed.
Lemma Csub_eq0 (a b : C) : (a - b)%C = RtoC 0 -> a = b.
Proof. intros H. replace a with (a - b + b)%C by ring. rewrite H. ring. Qed.

(** ** Exponential *)
Lemma Cexp_plus (a b : C) : Cexp (a + b) = (Cexp a * Cexp b)%C.
Proof.
  unfold Cexp. destruct a as [a1 a2], b as [b1 b2]. unfold Re, Im. simpl.
  rewrite exp_plus, cos_plus, sin_plus. unfold Cmult; simpl. f_equal; ring.
Qed.
Lemma Cexp_R (x : R) : Cexp (RtoC x) = RtoC (exp x).
Proof. unfold Cexp, RtoC, Re, Im. simpl. rewrite cos_0, sin_0. f_equal; ring. Qed.
Lemma Cexp_0 : Cexp (RtoC 0) = RtoC 1.
Proof. rewrite Cexp_R, exp_0. reflexivity. Qed.
Lemma Cexp_opp (a : C) : (Cexp a * Cexp (- a))%C = RtoC 1.
Proof. rewrite <- Cexp_plus. replace (a + - a)%C with (RtoC 0) by ring. apply Cexp_0. Qed.
Lemma Cexp_neq_0 (a : C) : Cexp a <> RtoC 0.
Proof.
  intros E. pose proof (Cexp_opp a) as H. rewrite E in H.
  apply C1_neq_0. rewrite <- H. ring.
Qed.
Lemma Cexp_conj (a : C) : Cexp (Cconj a) = Cconj (Cexp a).
Proof. unfold Cexp, Cconj, Re, Im. simpl. rewrite cos_neg, sin_neg. f_equal; ring. Qed.
Lemma Cexp_mod (a : C) : Cmod (Cexp a) = exp (Re a).
Proof.
  unfold Cmod, Cexp. simpl.
  replace (_ + _)%R with ((exp (Re a)) ^ 2 * ((sin (Im a))² + (cos (Im a))²)).
  - rewrite sin2_cos2, Rmult_1_r. apply sqrt_pow2. left. apply exp_pos.
  - unfold Rsqr. ring.
Qed.
#[global] Hint Resolve Cexp_neq_0 : core.
Lemma Cexp_opp_inv (a : C) : Cexp (- a) = (/ Cexp a)%C.
Proof.
  pose proof (Cexp_opp a) as H.
  replace (/ Cexp a)%C with (/ Cexp a * (Cexp a * Cexp (- a)))%C.
  - field. auto.
  - rewrite H. ring.
Qed.

(** ** Square root *)
Lemma Cmod_ge_Re (z : C) : Rabs (Re z) <= Cmod z.
Proof.
  destruct z as [a b]. unfold Cmod, Re. simpl.
  rewrite <- sqrt_Rsqr_abs. apply sqrt_le_1.
  - apply Rle_0_sqr.
  - nra.
  - unfold Rsqr. nra.
Qed.
Lemma Cmod_sqr (z : C) : (Cmod z) ^ 2 = (Re z) ^ 2 + (Im z) ^ 2.
Proof. destruct z as [a b]. unfold Cmod, Re, Im. simpl fst. simpl snd. apply pow2_sqrt. nra. Qed.

Lemma Csqrt_sqr (z : C) : (Csqrt z * Csqrt z)%C = z.
Proof.
  pose proof (Cmod_ge_Re z) as Hm. pose proof (Cmod_sqr z) as H2.
  apply Rabs_le_between in Hm.
  set (m := Cmod z) in *.
  assert (Hp : 0 <= (m + Re z) / 2) by lra.
  assert (Hq : 0 <= (m - Re z) / 2) by lra.
  assert (Hs : sqrt ((m + Re z) / 2) * sqrt ((m - Re z) / 2) = Rabs (Im z) / 2).
  { rewrite <- sqrt_mult by lra.
    replace ((m + Re z) / 2 * ((m - Re z) / 2)) with ((Rabs (Im z) / 2)²).
    - apply sqrt_Rsqr. pose proof (Rabs_pos (Im z)). lra.
    - unfold Rsqr. replace (Rabs (Im z) / 2 * (Rabs (Im z) / 2)) with ((Rabs (Im z) * Rabs (Im z)) / 4) by field.
      rewrite <- Rabs_mult, Rabs_pos_eq by nra. simpl in H2. nra. }
  pose proof (sqrt_sqrt _ Hp) as S1. pose proof (sqrt_sqrt _ Hq) as S2.
  unfold Csqrt. fold m.
  destruct z as [a b]. unfold Re, Im in *. simpl fst in *. simpl snd in *.
  unfold Cmult. simpl fst. simpl snd.
  set (u := sqrt ((m + a) / 2)) in *. set (v := sqrt ((m - a) / 2)) in *.
  destruct (Rle_dec 0 b) as [Hb|Hb].
  - rewrite Rabs_pos_eq in Hs by lra. f_equal; nra.
  - rewrite Rabs_left in Hs by lra. f_equal; nra.
Qed.
Lemma Csqrt_Re_nonneg (z : C) : 0 <= Re (Csqrt z).
Proof. unfold Csqrt, Re. simpl. apply sqrt_pos. Qed.
Lemma Csqrt_neq_0 (z : C) : z <> RtoC 0 -> Csqrt z <> RtoC 0.
Proof. intros H E. apply H. rewrite <- (Csqrt_sqr z), E. ring. Qed.
Lemma Csqrt_eq_0 (z : C) : Csqrt z = RtoC 0 -> z = RtoC 0.
Proof. intros E. rewrite <- (Csqrt_sqr z), E. ring. Qed.

(** square root of a non-positive real lies on the positive imaginary axis *)
Lemma Csqrt_neg (q : R) : 0 <= q -> Csqrt (RtoC (- q ^ 2)) = (0, q).
Proof.
  intros Hq. unfold Csqrt.
  replace (Cmod (RtoC (- q ^ 2))) with (q ^ 2).
  2:{ unfold RtoC, Cmod; simpl. replace (_ + _) with ((q^2)²) by (unfold Rsqr; ring).
      rewrite sqrt_Rsqr; [ring|nra]. }
  unfold Re, Im, RtoC; cbn [fst snd].
  replace ((q ^ 2 + - q ^ 2) / 2) with 0 by field.
  replace ((q ^ 2 - - q ^ 2) / 2) with (q²) by (unfold Rsqr; field).
  rewrite sqrt_0, sqrt_Rsqr by lra.
  destruct (Rle_dec 0 0); [|lra]. f_equal; ring.
Qed.
Lemma Csqrt_pos (q : R) : 0 <= q -> Csqrt (RtoC (q ^ 2)) = RtoC q.
Proof.
  intros Hq. unfold Csqrt.
  replace (Cmod (RtoC (q ^ 2))) with (q ^ 2).
  2:{ unfold RtoC, Cmod; simpl. replace (_ + _) with ((q^2)²) by (unfold Rsqr; ring).
      rewrite sqrt_Rsqr; [ring|nra]. }
  unfold Re, Im, RtoC; cbn [fst snd].
  replace ((q ^ 2 + q ^ 2) / 2) with (q²) by (unfold Rsqr; field).
  replace ((q ^ 2 - q ^ 2) / 2) with 0 by field.
  rewrite sqrt_0, sqrt_Rsqr by lra.
  destruct (Rle_dec 0 0); [|lra]. f_equal; ring.
Qed.

(** ** Monadic helpers *)
Lemma mapM_ok {A B} (f : A -> res B) (g : A -> B) l :
  (forall a, In a l -> f a = Ok (g a)) -> mapM f l = Ok (map g l).
Proof.
  induction l as [|a l IH]; simpl; intros H; [reflexivity|].
  rewrite H by auto. simpl. rewrite IH by auto. reflexivity.
Qed.
Lemma mapM_ok_all {A B} (f : A -> res B) (g : A -> B) l :
  (forall a, f a = Ok (g a)) -> mapM f l = Ok (map g l).
Proof. intros H. apply mapM_ok. auto. Qed.
Lemma mapM_ext {A B} (f g : A -> res B) l :
  (forall a, In a l -> f a = g a) -> mapM f l = mapM g l.
Proof.
  induction l as [|a l IH]; simpl; intros H; [reflexivity|].
  rewrite H by auto. destruct (g a); simpl; auto. rewrite IH by auto. reflexivity.
Qed.
Lemma mapM_length {A B} (f : A -> res B) l l' : mapM f l = Ok l' -> length l' = length l.
Proof.
  revert l'. induction l as [|a l IH]; simpl; intros l' H.
  - injection H as <-. reflexivity.
  - destruct (f a); simpl in H; [|discriminate]. destruct (mapM f l); simpl in H; [|discriminate].
    injection H as <-. simpl. f_equal. auto.
Qed.

(** ** Sums *)
Definition Csum (l : list C) : C := fold_right Cplus (RtoC 0) l.
Lemma csum_Some l : csum (map Some l) = Some (Csum l).
Proof. induction l; simpl; [reflexivity|]. unfold csum in *. rewrite IHl. reflexivity. Qed.
Lemma csum_map_Some {A} (f : A -> CV) (g : A -> C) l :
  (forall a, In a l -> f a = Some (g a)) -> csum (map f l) = Some (Csum (map g l)).
Proof.
  intros H. rewrite <- csum_Some, map_map. f_equal. apply map_ext_in. exact H.
Qed.
Lemma csum_inv l z : csum l = Some z -> exists l', l = map Some l' /\ z = Csum l'.
Proof.
  revert z. induction l as [|a l IH]; simpl; intros z H.
  - injection H as <-. exists []. auto.
  - apply olift2_Some in H. destruct H as (x & y & -> & Hy & ->).
    apply IH in Hy. destruct Hy as (l' & -> & ->). exists (x :: l'). auto.
Qed.
Lemma Csum_app l1 l2 : Csum (l1 ++ l2) = (Csum l1 + Csum l2)%C.
Proof. induction l1; simpl; [ring|]. rewrite IHl1. ring. Qed.
Lemma Csum_scal {A} (c : C) (f : A -> C) l :
  Csum (map (fun a => c * f a)%C l) = (c * Csum (map f l))%C.
Proof. induction l; simpl; [ring|]. rewrite IHl. ring. Qed.
Lemma Csum_plus {A} (f g : A -> C) l :
  Csum (map (fun a => f a + g a)%C l) = (Csum (map f l) + Csum (map g l))%C.
Proof. induction l; simpl; [ring|]. rewrite IHl. ring. Qed.
Lemma Csum_ext_in {A} (f g : A -> C) l :
  (forall a, In a l -> f a = g a) -> Csum (map f l) = Csum (map g l).
Proof. intros H. f_equal. apply map_ext_in. exact H. Qed.
Lemma Csum_zero {A} (l : list A) : Csum (map (fun _ => RtoC 0) l) = RtoC 0.
Proof. induction l; simpl; [ring|]. rewrite IHl. ring. Qed.
Lemma Csum_triang {A} (f : A -> C) l :
  Cmod (Csum (map f l)) <= fold_right Rplus 0 (map (fun a => Cmod (f a)) l).
Proof.
  induction l; simpl.
  - rewrite Cmod_0. lra.
  - eapply Rle_trans; [apply Cmod_triangle|]. lra.
Qed.
