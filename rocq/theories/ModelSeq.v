(** * Python sequences as arguments

    Numerical arguments as Python sees them: a Python number, a sequence (list,
    tuple, range) of numbers, or a NumPy array.  Arithmetic on arrays and numbers
    is that of the array model; sequences have their own meaning of [+] and [*]
    in Python and are only converted when they meet an array.

    Simplified: sequences are flat; Python numbers are floats (a Python integer
    times a sequence repeats it, which only the literals of the source do here);
    the layer thicknesses are floats; tip parameters (r_tip, L_tip, g_factor,
    d_Q0, d_Q1, d_Qa, eps_tip, alpha_tip) are left to their defaults or given as
    arrays.  [eff_pol] and the closed-form inverses are not repeated here. *)
From Coq Require Import String Reals Lra Lia ZArith List Bool.
From Coquelicot Require Import Complex.
From Verif Require Import Num ModelBase ModelSample ModelTip NArr ModelObj ModelArr ModelArrTip ModelInv.
Import ListNotations.
Open Scope R_scope.

Inductive py (A : Type) :=
| Num (x : A)
| Seq (l : list A)
| Arr (a : arr A).
Arguments Num {A}. Arguments Seq {A}. Arguments Arr {A}.

(** a one-dimensional array *)
Definition arr1 {A} (d : A) (l : list A) : arr A := mkArr [length l] (fun i => nth (hd O i) l d).
(** [np.asanyarray(v)] *)
Definition asanyarray {A} (d : A) (v : py A) : arr A :=
  match v with Num x => scalar x | Seq l => arr1 d l | Arr a => a end.
(** an argument that is used as an array only, element by element *)
Definition pmap {A B} (f : A -> B) (v : py A) : py B :=
  match v with Num x => Num (f x) | Seq l => Seq (map f l) | Arr a => Arr (amap f a) end.

(** [v + w]: two sequences are concatenated, a sequence and a Python number
    cannot be added *)
Definition padd {A} (d : A) (f : A -> A -> A) (v w : py A) : res (py A) :=
  match v, w with
  | Num x, Num y => Ok (Num (f x y))
  | Seq l, Seq m => Ok (Seq (l ++ m))
  | Seq _, Num _ | Num _, Seq _ => Raise TypeError
  | _, _ => let! r := amap2 f (asanyarray d v) (asanyarray d w) in Ok (Arr r)
  end.
(** [k * v] for an integer literal [k]: a sequence is repeated *)
Definition pimul {A} (k : nat) (f : A -> A) (v : py A) : py A :=
  match v with
  | Num x => Num (f x)
  | Seq l => Seq (concat (repeat l k))
  | Arr a => Arr (amap f a)
  end.
(** [v ** 2]: not defined for sequences *)
Definition psqr (v : py RV) : res (py RV) :=
  match v with
  | Num x => Ok (Num (x ^ 2)%rv)
  | Seq _ => Raise TypeError
  | Arr a => Ok (Arr (amap (fun x => (x ^ 2)%rv) a))
  end.
(** [v == 0]: a sequence is not equal to 0, whatever is in it *)
Definition peq0 (v : py Z) : arr bool :=
  match v with
  | Num x => scalar (Z.eqb x 0)
  | Seq _ => scalar false
  | Arr a => amap (fun x => Z.eqb x 0) a
  end.
(** an optional argument and its default, a Python number *)
Definition pdflt {A} (d : A) (o : option (py A)) : py A := match o with Some v => v | None => Num d end.
Definition pardflt {A} (d : A) (o : option (arr A)) : py A := match o with Some a => Arr a | None => Num d end.

(** ** [snompy/sample.py] *)
(** sample.py:181-252.  [q * t for t in self.t_stack] with a sequence [q]: a
    thickness that is a NumPy float makes this a TypeError, one that is an array
    converts [q]; without inner layers only [np.ones_like(q)] is used. *)
Definition refl_coef_qs_p (o : obj) (q : py RV) : res (arr CV) :=
  match q with
  | Seq _ =>
      let! multi := get_multilayer o in
      if multi && match o_t o with Some t => Nat.eqb (length (lsh t)) 0 | None => false end
      then Raise TypeError
      else refl_coef_qs_a o (asanyarray (A:=RV) None q)
  | _ => refl_coef_qs_a o (asanyarray (A:=RV) None q)
  end.

(** sample.py:579-586 / 705-712; [np.asanyarray(2 * z_Q)] *)
Definition sampled_beta_p (laggauss : laggauss_t) (o : obj) (z_Q : py RV) (n_lag : nat)
  : res (arr RV * arr RV * arr CV) :=
  if Nat.eqb n_lag 0 then Raise (ValueError msg_laggauss) else
  let rule := laggauss n_lag in
  let! r := refl_coef_qs_p o z_Q in
  let x := pad_for_broadcasting None (map (fun xw => rr (fst xw)) rule) [shp r] in
  let w := pad_for_broadcasting None (map (fun xw => rr (snd xw)) rule) [shp r] in
  let! q := amap2 rdiv x (asanyarray (A:=RV) None (pimul 2 (fun z => (rr 2 * z)%rv) z_Q)) in
  let! b := refl_coef_qs_a o q in
  Ok (x, w, b).

(** sample.py:472-590 *)
Definition refl_coef_qs_above_surf_p (laggauss : laggauss_t) (D : Defaults)
    (o : obj) (z_Q : py RV) (n_lag : option nat) : res (arr CV) :=
  let n_lag := dflt (d_n_lag D) n_lag in
  let! xwb := sampled_beta_p laggauss o z_Q n_lag in
  let '(x, w, b) := xwb in
  let! wx := amap2 rmul w x in
  let! s := amap2 (fun a y => (ofR a * y)%cv) wx b in
  Ok (sum_axis0 s).

(** sample.py:592-726 *)
Definition surf_pot_and_field_p (laggauss : laggauss_t) (D : Defaults)
    (o : obj) (z_Q : py RV) (n_lag : option nat) : res (arr CV * arr CV) :=
  let n_lag := dflt (d_n_lag D) n_lag in
  let! xwb := sampled_beta_p laggauss o z_Q n_lag in
  let '(x, w, b) := xwb in
  let! s1 := amap2 (fun a y => (ofR a * y)%cv) w b in
  let! phi := amap2 (fun s z => (s / ofR z)%cv) (sum_axis0 s1)
                (asanyarray (A:=RV) None (pimul 2 (fun z => (rr 2 * z)%rv) z_Q)) in
  let! wx := amap2 rmul w x in
  let! s2 := amap2 (fun a y => (ofR a * y)%cv) wx b in
  let! z2 := psqr z_Q in
  let! E := amap2 (fun s z => (s / ofR z)%cv) (sum_axis0 s2)
              (asanyarray (A:=RV) None (pimul 4 (fun z => (rr 4 * z)%rv) z2)) in
  Ok (phi, E).

(** sample.py:728-798 *)
Definition image_depth_and_charge_p (laggauss : laggauss_t) (D : Defaults)
    (o : obj) (z_Q : py RV) (n_lag : option nat) : res (arr RV * arr CV) :=
  let! pE := surf_pot_and_field_p laggauss D o z_Q n_lag in
  let! ratio := amap2 cdiv (fst pE) (snd pE) in
  let! d := amap2 (fun x z => (cabs x - z)%rv) ratio (asanyarray (A:=RV) None z_Q) in
  let! b := amap2 (fun p E => (p ^ 2 / E)%cv) (fst pE) (snd pE) in
  Ok (d, b).

Section WithLaggauss.
Variable laggauss : laggauss_t.

(** ** [snompy/fdm.py] *)
(** fdm.py:62-112 *)
Definition fdm_eff_pol_n_p (D : Defaults) (o : obj) (A_tip : py R) (n : py Z)
    (z_tip : option (py R)) (n_trapz : option nat)
    (r_tip L_tip : option (arr R)) (g_factor : option (arr C)) (d_Q0 d_Q1 d_Qa : option (arr R))
    (n_lag : option nat) (method : option string) : res (arr CV) :=
  let! z_0 := padd 0 Rplus (pdflt (d_z_tip D) z_tip) A_tip in
  demod_a D (fun x => fdm_eff_pol_a laggauss D o (Some x) r_tip L_tip g_factor d_Q0 d_Q1 d_Qa n_lag method)
          (asanyarray 0 z_0) (asanyarray 0 A_tip) (asanyarray 0%Z n) n_trapz.

(** fdm.py:452-532 *)
Definition fdm_taylor_coef_p (D : Defaults) (z_tip : py R) (j_taylor : arr nat) (A_tip : py R)
    (n : py Z) (r_tip L_tip : arr RV) (g_factor : arr CV) (d_Q0 d_Q1 : arr RV) (n_trapz : option nat)
  : res (arr CV) :=
  let! z_0 := padd 0 Rplus z_tip A_tip in
  let! d := demod_a D (fun z => fdm_geom_func_taylor_a (amap rr z) j_taylor r_tip L_tip g_factor d_Q0 d_Q1)
                    (asanyarray 0 z_0) (asanyarray 0 A_tip) (asanyarray 0%Z n) n_trapz in
  let non_zero_terms := amap (fun y => (y / rc 2)%cv) d in
  let zero_term := amap (fun b : bool => if b then rc 1 else rc 0) (peq0 n) in
  lift2 (fun j ab => if Nat.eqb j 0 then fst ab else snd ab) (Ok j_taylor)
        (amap2 pair zero_term non_zero_terms).

(** fdm.py:535-659 *)
Definition fdm_eff_pol_n_taylor_p (D : Defaults) (o : obj) (A_tip : py R) (n : py Z)
    (z_tip : option (py R)) (r_tip L_tip : option (arr R)) (g_factor : option (arr C))
    (d_Q0 d_Q1 d_Qa : option (arr R))
    (n_lag : option nat) (method : option string) (n_trapz n_tayl : option nat) : res (arr CV) :=
  let z_tip := pdflt (d_z_tip D) z_tip in
  let! defs := fdm_defaults_a D r_tip L_tip g_factor d_Q0 d_Q1 d_Qa in
  match defs with
  | (r_tip', L_tip', g_factor', d_Q0', d_Q1', d_Qa') =>
    let n_tayl := dflt (d_n_tayl D) n_tayl in
    let! multi := get_multilayer o in
    let method := match method with
                  | None => if multi then "Q_ave"%string else "bulk"%string
                  | Some m => m
                  end in
    let! beta :=
      (if String.eqb method "bulk" then
         if multi then Raise (ValueError msg_bulk_multi)
         else refl_coef_qs_a o (scalar (rr 0))
       else if String.eqb method "Q_ave" then
         let! rd := match r_tip, d_Qa with
                    | None, None => Ok (Num (A:=RV) (rr (d_r_tip D) * rr (d_d_Qa D))%rv)
                    | _, _ => let! a := amap2 (fun r d => (rr r * rr d)%rv) r_tip' d_Qa' in Ok (Arr a)
                    end in
         let! z_Qa := padd (A:=RV) None radd (pmap (B:=RV) rr z_tip) rd in
         refl_coef_qs_above_surf_p laggauss D o z_Qa n_lag
       else Raise (ValueError msg_method_taylor)) in
    let j_taylor := pad_for_broadcasting O (seq 0 n_tayl)
      [shp (asanyarray 0 z_tip); shp (asanyarray 0 A_tip); shp (asanyarray 0%Z n); shp beta; shp r_tip'; shp L_tip';
       shp g_factor'; shp d_Q0'; shp d_Q1'] in
    let! coefs := fdm_taylor_coef_p D z_tip j_taylor A_tip n (amap rr r_tip') (amap rr L_tip')
                    (amap Some g_factor') d_Q0' (amap rr d_Q1') n_trapz in
    let! terms := lift2 cmul (Ok coefs) (amap2 cpown beta j_taylor) in
    Ok (sum_axis0 terms)
  end.
End WithLaggauss.

(** ** [snompy/pdm.py] *)
(** pdm.py:60-146 *)
Definition pdm_eff_pol_n_p (D : Defaults) (o : obj) (A_tip : py R) (n : py Z)
    (z_tip : option (py R)) (n_trapz : option nat)
    (r_tip : option (arr R)) (eps_tip alpha_tip : option (arr C)) : res (arr CV) :=
  let! z_0 := padd 0 Rplus (pdflt (d_z_tip D) z_tip) A_tip in
  demod_a D (fun x => pdm_eff_pol_a D o (Some x) r_tip eps_tip alpha_tip)
    (asanyarray 0 z_0) (asanyarray 0 A_tip) (asanyarray 0%Z n) n_trapz.

(** pdm.py:257-318 *)
Definition pdm_taylor_coef_p (D : Defaults) (z_tip : py R) (j_taylor : arr nat) (A_tip : py R)
    (n : py Z) (r_tip : arr RV) (alpha_tip : arr CV) (n_trapz : option nat) : res (arr CV) :=
  let! z_0 := padd 0 Rplus z_tip A_tip in
  demod_a D (fun z => let! f := pdm_geom_func_a (amap rr z) r_tip alpha_tip in amap2 cpown f j_taylor)
    (asanyarray 0 z_0) (asanyarray 0 A_tip) (asanyarray 0%Z n) n_trapz.

(** pdm.py:321-407 *)
Definition pdm_eff_pol_n_taylor_p (D : Defaults) (o : obj) (A_tip : py R) (n : py Z)
    (z_tip : option (py R)) (r_tip : option (arr R)) (eps_tip alpha_tip : option (arr C))
    (n_trapz n_tayl : option nat) : res (arr CV) :=
  let z_tip := pdflt (d_z_tip D) z_tip in
  let! ra := pdm_defaults_a D r_tip eps_tip alpha_tip in
  let n_tayl := dflt (d_n_tayl D) n_tayl in
  let! beta := refl_coef_qs_a o (scalar (rr 0)) in
  let j_taylor := pad_for_broadcasting O (seq 0 n_tayl)
    [shp (asanyarray 0 z_tip); shp (asanyarray 0 A_tip); shp (asanyarray 0%Z n); shp beta; shp (fst ra); shp (snd ra)] in
  let! coefs := pdm_taylor_coef_p D z_tip j_taylor A_tip n (amap rr (fst ra)) (snd ra) n_trapz in
  let! terms := lift2 cmul (Ok coefs) (amap2 cpown beta j_taylor) in
  Ok (sum_axis0 terms).

(** ** The root-finding inverses *)
Section WithLibrary.
Variable eig_roots : list C -> list C.
Variable argsort_bool : list bool -> list nat.
Variable argsort_real : list RV -> list nat.

(** fdm.py:662-811; [coefs - alpha_eff_n] converts [alpha_eff_n] *)
Definition fdm_refl_coef_qs_from_eff_pol_n_p (D : Defaults) (alpha_eff_n : py CV) (A_tip : py R)
    (n : py Z) (z_tip : option (py R)) (r_tip L_tip : option (arr R)) (g_factor : option (arr C))
    (d_Q0 d_Q1 : option (arr R)) (n_trapz n_tayl : option nat) (beta_threshold : option R)
    (reject_negative_eps_imag reject_subvacuum_eps_abs : bool) (eps_env : option (arr C))
  : res (arr CV * arr bool) :=
  let z_tip := pdflt (d_z_tip D) z_tip in
  let! defs := fdm_defaults_a D r_tip L_tip g_factor d_Q0 d_Q1 None in
  match defs with
  | (r_tip, L_tip, g_factor, d_Q0, d_Q1, _) =>
    let n_tayl := dflt (d_n_tayl D) n_tayl in
    let beta_threshold := dflt (d_beta_threshold D) beta_threshold in
    let eps_env := darr (d_eps_env D) eps_env in
    let j_taylor := pad_for_broadcasting O (seq 0 n_tayl)
      [shp (asanyarray 0 z_tip); shp (asanyarray 0 A_tip); shp (asanyarray 0%Z n); shp (asanyarray (A:=CV) None alpha_eff_n);
       shp r_tip; shp L_tip; shp g_factor; shp d_Q0; shp d_Q1] in
    let! coefs := fdm_taylor_coef_p D z_tip j_taylor A_tip n (amap rr r_tip) (amap rr L_tip)
                    (amap Some g_factor) d_Q0 (amap rr d_Q1) n_trapz in
    let! offset := offset_coefs j_taylor coefs (asanyarray (A:=CV) None alpha_eff_n) in
    let! all_roots := apply_along_axis0 None (polyroots eig_roots) offset in
    select_roots argsort_bool argsort_real beta_threshold reject_negative_eps_imag reject_subvacuum_eps_abs eps_env all_roots
  end.
End WithLibrary.
