(** * What it means that a [Sample] keeps its own data *)
From Coq Require Import Reals List Arith Lia.
From Coquelicot Require Import Complex.
From Verif Require Import Num ModelBase ModelSample NArr ModelObj SpecObj ModelHeap.
Import ListNotations.
Open Scope nat_scope.

(** the sample that object [k] is, in the sense of ModelObj.v *)
Definition value_of (st : state) (k : nat) : option obj :=
  match nth_error (objs st) k with Some o => Some (value (mem st) o) | None => None end.
(** the arrays that a program gets from [sample.t_stack], [sample.eps_stack]
    (or [sample.eps_env]) and [sample.nu_vac] *)
Definition ref_buffer (r : ref_r) : list nat :=
  match r with NumR _ => [] | BufR b => [b] | RowR b _ => [b] end.
Definition buffers_of (o : hobj) : list nat :=
  (match h_t o with Some b => [b] | None => [] end) ++
  (match h_eps o with Some b => [b] | None => [] end) ++
  (match h_nu o with Some r => ref_buffer r | None => [] end).
Definition buffers (st : state) (k : nat) : list nat :=
  match nth_error (objs st) k with Some o => buffers_of o | None => [] end.

(** the same thicknesses, permittivities and wavenumber *)
Definition same_sample (a b : obj) : Prop :=
  o_t a = o_t b /\ o_eps a = o_eps b /\ o_nu a = o_nu b.

(** the program never writes to the arrays that object [k] has at the time *)
Fixpoint never_writes_to (D : Defaults) (k : nat) (p : list stmt) (st : state) : Prop :=
  match p with
  | [] => True
  | s :: p' =>
      match s with WriteC b _ _ | WriteR b _ _ => ~ In b (buffers st k) | _ => True end /\
      never_writes_to D k p' (fst (step D s st))
  end.
(** the assignments to attributes of object [k], with the values the right-hand
    sides have at the time *)
Definition assignment (k : nat) (s : stmt) (h : heap) : list assign :=
  match s with
  | AssignT k' v => if Nat.eqb k' k then [SetT (option_map (map (read_r h)) v)] else []
  | AssignEps k' v => if Nat.eqb k' k then [SetEps (map (read_c h) v)] else []
  | AssignBeta k' v => if Nat.eqb k' k then [SetBeta (map (read_c h) v)] else []
  | AssignNu k' v => if Nat.eqb k' k then [SetNu (option_map (read_r h) v)] else []
  | _ => []
  end.
Fixpoint assignments (D : Defaults) (k : nat) (p : list stmt) (st : state) : list assign :=
  match p with
  | [] => []
  | s :: p' => assignment k s (mem st) ++ assignments D k p' (fst (step D s st))
  end.
(** carried out one after the other, exceptions caught *)
Definition run_all (l : list assign) (o : obj) : obj := fold_left (fun o a => fst (run a o)) l o.

(** every assignment to object [k] returns normally *)
Fixpoint assigns_normally (D : Defaults) (k : nat) (p : list stmt) (st : state) : Prop :=
  match p with
  | [] => True
  | s :: p' =>
      (assignment k s (mem st) <> [] -> snd (step D s st) = Ok tt) /\
      assigns_normally D k p' (fst (step D s st))
  end.

(** the arrays a statement mentions exist *)
Definition names_c (r : ref_c) : list nat := match r with NumC _ => [] | BufC b => [b] | RowC b _ => [b] end.
Definition names (s : stmt) : list nat :=
  match s with
  | NewC _ | NewR _ | ReadBeta _ => []
  | WriteC b _ _ | WriteR b _ _ => [b]
  | Make e b t env nu =>
      flat_map names_c (given e) ++ flat_map names_c (given b) ++ flat_map ref_buffer (given t)
      ++ (match env with Some r => names_c r | None => [] end)
      ++ (match nu with Some r => ref_buffer r | None => [] end)
  | AssignT _ v => flat_map ref_buffer (given v)
  | AssignEps _ v | AssignBeta _ v => flat_map names_c v
  | AssignNu _ v => match v with Some r => ref_buffer r | None => [] end
  end.
Fixpoint legal (D : Defaults) (p : list stmt) (st : state) : Prop :=
  match p with
  | [] => True
  | s :: p' => (forall b, In b (names s) -> b < length (mem st)) /\ legal D p' (fst (step D s st))
  end.

(** programs that do not make [nu_vac] refer to an array *)
Definition plain (s : stmt) : Prop :=
  match s with AssignNu _ (Some (BufR _)) | AssignNu _ (Some (RowR _ _)) => False | _ => True end.
(** states a program can be in *)
Definition nothing : state := mkState [] [].
Definition reachable (D : Defaults) (st : state) : Prop :=
  exists p, legal D p nothing /\ st = exec D p nothing.
