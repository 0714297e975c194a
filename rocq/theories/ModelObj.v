(** * [Sample] objects: life cycle and array-valued attributes
      (sample.py:102-179, 458-470, 801-828) *)
From Coq Require Import String Reals Lra Lia ZArith List Bool.
From Coquelicot Require Import Complex.
From Verif Require Import Num ModelBase ModelSample NArr.
Import ListNotations.
Open Scope R_scope.

(** The attributes of an object (sample.py:117-119, 127): [_t_stack],
    [_eps_stack] (None until first assigned), [_eps_env], [nu_vac]. *)
Record obj := mkObj {
  o_t : option (layers R);
  o_eps : option (layers CV);
  o_env : arr CV;
  o_nu : option (arr R)
}.

Definition msg_layers : string := "Invalid inputs: `eps_stack` must be 2 longer than `t_stack`, or `beta_stack` must be 1 longer than `t_stack`, along the first axis.".
Definition msg_stack_args : string := "Either `eps_stack` or `beta_stack` must be specified, (but not both).".
Definition msg_output : string := "non-broadcastable output operand".

(** sample.py:458-470 [_check_layers_valid] *)
Definition check_layers_valid (o : obj) : res unit :=
  match o_t o, o_eps o with
  | Some t, Some e =>
      if Nat.eqb (length (lay e)) (length (lay t) + 2) then Ok tt
      else Raise (ValueError msg_layers)
  | _, _ => Ok tt
  end.

(** A method call on an object: the state it leaves behind, and its result *)
Definition call := (obj * res unit)%type.

(** sample.py:133-141 [t_stack] setter *)
Definition set_t (val : option (list (arr R))) (o : obj) : call :=
  match (match val with
         | None => Ok (mkLayers [] [])
         | Some v => broadcast_arrays v
         end) with
  | Raise e => (o, Raise e)
  | Ok t =>
      let o' := mkObj (Some t) (o_eps o) (o_env o) (o_nu o) in
      (o', check_layers_valid o')
  end.

(** sample.py:147-152 [eps_stack] setter *)
Definition set_eps (val : list (arr CV)) (o : obj) : call :=
  match broadcast_arrays val with
  | Raise e => (o, Raise e)
  | Ok e =>
      let o' := mkObj (o_t o) (Some e) (o_env o) (o_nu o) in
      (o', check_layers_valid o')
  end.

(** sample.py:168-170 [eps_env] getter *)
Definition get_eps_env (o : obj) : res (arr CV) :=
  match o_eps o with
  | None => Ok (o_env o)
  | Some e => match slices e with
              | [] => Raise IndexError
              | a :: _ => Ok a
              end
  end.

(** [np.cumprod(..., axis=0)], at one index of the remaining axes *)
Fixpoint lcumprod (acc : list nat -> CV) (l : list (list nat -> CV)) : list (list nat -> CV) :=
  match l with
  | [] => []
  | x :: l' => let a := fun i => (acc i * x i)%cv in a :: lcumprod a l'
  end.

(** [a *= b] for a stack [a]: the result must have the shape of [a].  The
    operand is broadcast against the whole stack, first axis included. *)
Definition imul_stack (a : layers CV) (b : arr CV) : res (layers CV) :=
  let full := lsh a ++ [length (lay a)] in
  match bshape full (shp b) with
  | None => Raise (ValueError msg_broadcast)
  | Some s =>
      if list_eq_dec Nat.eq_dec s full
      then Ok (mkLayers (lsh a)
                 (map (fun kx i => (snd kx i * at_ b (bidx (shp b) (i ++ [fst kx])))%cv)
                      (combine (seq 0 (length (lay a))) (lay a))))
      else Raise (ValueError msg_output)
  end.

(** sample.py:159-166 [beta_stack] setter *)
Definition set_beta (val : list (arr CV)) (o : obj) : call :=
  match broadcast_arrays val with
  | Raise e => (o, Raise e)
  | Ok beta =>
      let ones := fun _ : list nat => rc 1 in
      let eps := mkLayers (lsh beta)
        (ones :: lcumprod ones (map (fun b i => permitivitty (b i) (rc 1)) (lay beta))) in
      match get_eps_env o with
      | Raise e => (o, Raise e)
      | Ok env =>
          match imul_stack eps env with
          | Raise e => (o, Raise e)
          | Ok eps => set_eps (slices eps) o
          end
      end
  end.

(** sample.py:127: [nu_vac] is a plain attribute *)
Definition set_nu (val : option (arr R)) (o : obj) : call :=
  (mkObj (o_t o) (o_eps o) (o_env o) val, Ok tt).

(** sample.py:102-127 [__init__] *)
Definition init (D : Defaults) (eps_stack beta_stack : option (list (arr CV)))
    (t_stack : option (list (arr R))) (eps_env : option (arr CV)) (nu_vac : option (arr R))
  : res obj :=
  let env := match eps_env with None => scalar (Some (d_eps_env D)) | Some e => e end in
  match eps_stack, beta_stack with
  | None, None => Raise (ValueError msg_stack_args)
  | Some _, Some _ => Raise (ValueError msg_stack_args)
  | _, _ =>
      match set_t t_stack (mkObj None None env None) with
      | (_, Raise e) => Raise e
      | (o1, Ok _) =>
          match (match eps_stack, beta_stack with
                 | Some e, _ => set_eps e o1
                 | _, Some b => set_beta b o1
                 | _, _ => (o1, Ok tt)
                 end) with
          | (_, Raise e) => Raise e
          | (o2, Ok _) => Ok (mkObj (o_t o2) (o_eps o2) (o_env o2) nu_vac)
          end
      end
  end.

(** sample.py:172-174 [n_layers]; before the first assignment there is nothing
    to take the shape of (AttributeError, shown as TypeError) *)
Definition get_n_layers (o : obj) : res nat :=
  match o_eps o with None => Raise TypeError | Some e => Ok (length (lay e)) end.
(** sample.py:176-179 [multilayer] *)
Definition get_multilayer (o : obj) : res bool :=
  let! n := get_n_layers o in Ok (Nat.ltb 2 n).

(** sample.py:154-157 [beta_stack] getter *)
Definition get_beta (o : obj) : res (layers CV) :=
  match o_eps o with
  | None => Raise TypeError
  | Some e => Ok (mkLayers (lsh e)
      (map (fun p i => refl_coef_qs_single (fst p i) (snd p i)) (combine (removelast (lay e)) (tl (lay e)))))
  end.

(** sample.py:801-828 [bulk_sample]; the remaining keyword arguments of
    [Sample] are t_stack and nu_vac *)
Definition bulk_sample (D : Defaults) (eps_sub beta eps_env : option (arr CV))
    (t_stack : option (list (arr R))) (nu_vac : option (arr R)) : res obj :=
  let env := match eps_env with None => scalar (Some (d_eps_env D)) | Some e => e end in
  let eps_stack := match eps_sub with None => None | Some e => Some [env; e] end in
  let beta_stack := match beta with None => None | Some b => Some [b] end in
  init D eps_stack beta_stack t_stack (Some env) nu_vac.

(** An assignment statement [sample.attr = value] (sample.py:127, 133-166) *)
Inductive assign :=
| SetT (val : option (list (arr R)))
| SetEps (val : list (arr CV))
| SetBeta (val : list (arr CV))
| SetNu (val : option (arr R)).
Definition run (a : assign) (o : obj) : call :=
  match a with
  | SetT v => set_t v o
  | SetEps v => set_eps v o
  | SetBeta v => set_beta v o
  | SetNu v => set_nu v o
  end.
