(** * [Sample] objects and the memory they live in (sample.py:102-179)

    ModelObj.v says what the attributes of a [Sample] are; here, where they are
    stored.  NumPy arrays are buffers that a program can write to after they
    have been passed to, or read from, a [Sample]; whether such a write changes
    the sample depends on whether the sample shares the buffer. *)
From Coq Require Import String Reals Lra Lia ZArith List Bool Arith.
From Coquelicot Require Import Complex.
From Verif Require Import Num ModelBase ModelSample NArr ModelObj.
Import ListNotations.
Open Scope nat_scope.

(** The contents of a buffer: a user's array of complex or real numbers, or an
    array with a first axis made by [np.asanyarray( [..., ...] )].  dtypes are
    not modelled: an array of complex numbers stands for one of any dtype that
    is converted to complex on reading. *)
Inductive data :=
| ArrC (a : arr CV)
| ArrR (a : arr R)
| StackC (l : layers CV)
| StackR (l : layers R).
Definition heap := list data.

(** An array-like argument: a Python number, an array, or one row of a stacked
    array (iterating over, or indexing, an array gives views of it).  Other views
    of a buffer behave like these. *)
Inductive ref_c := NumC (x : CV) | BufC (b : nat) | RowC (b k : nat).
Inductive ref_r := NumR (x : R) | BufR (b : nat) | RowR (b k : nat).
(** what it evaluates to; a reference to a buffer of another kind does not occur *)
Definition read_c (h : heap) (r : ref_c) : arr CV :=
  match r with
  | NumC x => scalar x
  | BufC b => match nth_error h b with Some (ArrC a) => a | Some (StackC l) => stacked None l | _ => scalar None end
  | RowC b k => match nth_error h b with Some (StackC l) => nth k (slices l) (scalar None) | _ => scalar None end
  end.
Definition read_r (h : heap) (r : ref_r) : arr R :=
  match r with
  | NumR x => scalar x
  | BufR b => match nth_error h b with Some (ArrR a) => a | Some (StackR l) => stacked 0%R l | _ => scalar 0%R end
  | RowR b k => match nth_error h b with Some (StackR l) => nth k (slices l) (scalar 0%R) | _ => scalar 0%R end
  end.

(** [a[i] = x] *)
Definition put {A} (i : list nat) (x : A) (a : arr A) : arr A :=
  mkArr (shp a) (fun j => if list_eq_dec Nat.eq_dec j i then x else at_ a j).
Definition put_stack {A} (i : list nat) (x : A) (l : layers A) : layers A :=
  mkLayers (lsh l)
    (map (fun kf j => if Nat.eqb (fst kf) (last i O)
                      then (if list_eq_dec Nat.eq_dec j (removelast i) then x else snd kf j)
                      else snd kf j)
         (combine (seq 0 (length (lay l))) (lay l))).
Definition write_c (i : list nat) (x : CV) (d : data) : data :=
  match d with ArrC a => ArrC (put i x a) | StackC l => StackC (put_stack i x l) | _ => d end.
Definition write_r (i : list nat) (x : R) (d : data) : data :=
  match d with ArrR a => ArrR (put i x a) | StackR l => StackR (put_stack i x l) | _ => d end.
Fixpoint update {A} (b : nat) (f : A -> A) (l : list A) : list A :=
  match l, b with
  | [], _ => []
  | d :: l', O => f d :: l'
  | d :: l', S b' => d :: update b' f l'
  end.

(** sample.py:117-119, 127: the attributes are references.  [_t_stack] and
    [_eps_stack] refer to stacked arrays; [_eps_env] and [nu_vac] to anything. *)
Record hobj := mkH {
  h_t : option nat;
  h_eps : option nat;
  h_env : ref_c;
  h_nu : option ref_r
}.
Definition stack_r (h : heap) (b : nat) : option (layers R) :=
  match nth_error h b with Some (StackR l) => Some l | _ => None end.
Definition stack_c (h : heap) (b : nat) : option (layers CV) :=
  match nth_error h b with Some (StackC l) => Some l | _ => None end.
(** the object as ModelObj.v sees it *)
Definition value (h : heap) (o : hobj) : obj :=
  mkObj (match h_t o with Some b => stack_r h b | None => None end)
        (match h_eps o with Some b => stack_c h b | None => None end)
        (read_c h (h_env o))
        (match h_nu o with Some r => Some (read_r h r) | None => None end).

(** A method call: the heap and the object it leaves behind, and its result *)
Definition hcall := (heap * hobj * res unit)%type.

(** sample.py:133-141 [t_stack] setter.  [np.array([])] and [np.asanyarray] of a
    list of arrays both make a new array. *)
Definition h_set_t (val : option (list ref_r)) (h : heap) (o : hobj) : hcall :=
  match (match val with
         | None => Ok (mkLayers [] [])
         | Some v => broadcast_arrays (map (read_r h) v)
         end) with
  | Raise e => (h, o, Raise e)
  | Ok t =>
      let h' := h ++ [StackR t] in
      let o' := mkH (Some (length h)) (h_eps o) (h_env o) (h_nu o) in
      (h', o', check_layers_valid (value h' o'))
  end.

(** sample.py:147-152 [eps_stack] setter, for arrays and for references *)
Definition h_set_eps_arrays (val : list (arr CV)) (h : heap) (o : hobj) : hcall :=
  match broadcast_arrays val with
  | Raise e => (h, o, Raise e)
  | Ok l =>
      let h' := h ++ [StackC l] in
      let o' := mkH (h_t o) (Some (length h)) (h_env o) (h_nu o) in
      (h', o', check_layers_valid (value h' o'))
  end.
Definition h_set_eps (val : list ref_c) (h : heap) (o : hobj) : hcall :=
  h_set_eps_arrays (map (read_c h) val) h o.

(** sample.py:159-166 [beta_stack] setter.  [np.ones] makes a new array, which is
    filled in place and then passed to the [eps_stack] setter, which copies it. *)
Definition h_set_beta (val : list ref_c) (h : heap) (o : hobj) : hcall :=
  match broadcast_arrays (map (read_c h) val) with
  | Raise e => (h, o, Raise e)
  | Ok beta =>
      let ones := fun _ : list nat => rc 1 in
      let eps := mkLayers (lsh beta)
        (ones :: lcumprod ones (map (fun b i => permitivitty (b i) (rc 1)) (lay beta))) in
      match get_eps_env (value h o) with
      | Raise e => (h, o, Raise e)
      | Ok env =>
          match imul_stack eps env with
          | Raise e => (h, o, Raise e)
          | Ok eps => h_set_eps_arrays (slices eps) (h ++ [StackC eps]) o
          end
      end
  end.

(** sample.py:127: [nu_vac] is a plain attribute, assignment stores the reference *)
Definition h_set_nu (val : option ref_r) (h : heap) (o : hobj) : hcall :=
  (h, mkH (h_t o) (h_eps o) (h_env o) val, Ok tt).

(** sample.py:102-127 [__init__]; [np.array(nu_vac)] copies *)
Definition h_init (D : Defaults) (eps_stack beta_stack : option (list ref_c))
    (t_stack : option (list ref_r)) (eps_env : option ref_c) (nu_vac : option ref_r) (h : heap)
  : heap * res hobj :=
  let env := match eps_env with None => NumC (Some (d_eps_env D)) | Some e => e end in
  match eps_stack, beta_stack with
  | None, None => (h, Raise (ValueError msg_stack_args))
  | Some _, Some _ => (h, Raise (ValueError msg_stack_args))
  | _, _ =>
      match h_set_t t_stack h (mkH None None env None) with
      | (h1, _, Raise e) => (h1, Raise e)
      | (h1, o1, Ok _) =>
          match (match eps_stack, beta_stack with
                 | Some e, _ => h_set_eps e h1 o1
                 | _, Some b => h_set_beta b h1 o1
                 | _, _ => (h1, o1, Ok tt)
                 end) with
          | (h2, _, Raise e) => (h2, Raise e)
          | (h2, o2, Ok _) =>
              match nu_vac with
              | None => (h2, Ok (mkH (h_t o2) (h_eps o2) (h_env o2) None))
              | Some v => (h2 ++ [ArrR (read_r h2 v)],
                           Ok (mkH (h_t o2) (h_eps o2) (h_env o2) (Some (BufR (length h2)))))
              end
          end
      end
  end.

(** ** Programs *)
(** One statement of a program that uses [Sample]s: making an array, writing an
    element of any array it can get hold of, making a [Sample], assigning to an
    attribute of the k-th [Sample], and reading its [beta_stack] (a new array,
    sample.py:154-157).  Reading [t_stack], [eps_stack] (sample.py:129-131,
    143-145) or [nu_vac] gives the array itself, so a statement can mention its
    buffer; so does reading [eps_env] (sample.py:168-170), which is a row of it. *)
Inductive stmt :=
| NewC (a : arr CV)
| NewR (a : arr R)
| WriteC (b : nat) (i : list nat) (x : CV)
| WriteR (b : nat) (i : list nat) (x : R)
| Make (eps_stack beta_stack : option (list ref_c)) (t_stack : option (list ref_r))
    (eps_env : option ref_c) (nu_vac : option ref_r)
| AssignT (k : nat) (val : option (list ref_r))
| AssignEps (k : nat) (val : list ref_c)
| AssignBeta (k : nat) (val : list ref_c)
| AssignNu (k : nat) (val : option ref_r)
| ReadBeta (k : nat).

Record state := mkState { mem : heap; objs : list hobj }.

Definition assign_to (k : nat) (f : heap -> hobj -> hcall) (st : state) : state * res unit :=
  match nth_error (objs st) k with
  | None => (st, Ok tt)
  | Some o => match f (mem st) o with
              | (h', o', r) => (mkState h' (update k (fun _ => o') (objs st)), r)
              end
  end.
(** exceptions are caught by the program *)
Definition step (D : Defaults) (s : stmt) (st : state) : state * res unit :=
  match s with
  | NewC a => (mkState (mem st ++ [ArrC a]) (objs st), Ok tt)
  | NewR a => (mkState (mem st ++ [ArrR a]) (objs st), Ok tt)
  | WriteC b i x => (mkState (update b (write_c i x) (mem st)) (objs st), Ok tt)
  | WriteR b i x => (mkState (update b (write_r i x) (mem st)) (objs st), Ok tt)
  | Make e b t env nu =>
      match h_init D e b t env nu (mem st) with
      | (h, Ok o) => (mkState h (objs st ++ [o]), Ok tt)
      | (h, Raise x) => (mkState h (objs st), Raise x)
      end
  | AssignT k v => assign_to k (h_set_t v) st
  | AssignEps k v => assign_to k (h_set_eps v) st
  | AssignBeta k v => assign_to k (h_set_beta v) st
  | AssignNu k v => assign_to k (h_set_nu v) st
  | ReadBeta k =>
      match nth_error (objs st) k with
      | None => (st, Ok tt)
      | Some o => match get_beta (value (mem st) o) with
                  | Raise e => (st, Raise e)
                  | Ok b => (mkState (mem st ++ [StackC b]) (objs st), Ok tt)
                  end
      end
  end.
Fixpoint exec (D : Defaults) (p : list stmt) (st : state) : state :=
  match p with
  | [] => st
  | s :: p' => exec D p' (fst (step D s st))
  end.
