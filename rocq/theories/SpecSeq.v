(** * Sequences as arguments: what they are meant to be *)
From Coq Require Import String Reals ZArith List Bool.
From Coquelicot Require Import Complex.
From Verif Require Import Num NArr SpecArr ModelSeq.
Import ListNotations.
Open Scope R_scope.

(** not a list, tuple or range *)
Definition plain {A} (v : py A) : Prop := match v with Seq _ => False | _ => True end.
Definition is_array {A} (v : py A) : Prop := match v with Arr _ => True | _ => False end.
Definition is_seq {A} (v : py A) : Prop := match v with Seq _ => True | _ => False end.
(** an optional argument; the default is a Python number *)
Definition plain_opt {A} (o : option (py A)) : Prop := match o with Some v => plain v | None => True end.
Definition array_opt {A} (o : option (py A)) : Prop := match o with Some v => is_array v | None => False end.
Definition seq_opt {A} (o : option (py A)) : Prop := match o with Some v => is_seq v | None => False end.
(** the array with the same contents *)
Definition as_array {A} (d : A) (v : py A) : arr A :=
  match v with
  | Num x => mkArr [] (fun _ => x)
  | Seq l => mkArr [length l] (fun i => nth (hd O i) l d)
  | Arr a => a
  end.
Definition as_array_opt {A} (d : A) (o : option (py A)) : option (arr A) :=
  match o with Some v => Some (as_array d v) | None => None end.
(** the item of a sequence that meets index [i] of the result *)
Definition item {A} (d : A) (l : list A) (i : list nat) : A :=
  nth (if Nat.eqb (length l) 1 then O else hd O i) l d.
