(** * n-dimensional arrays with NumPy broadcasting

    An array is a shape and a function from indices to entries.  Shapes and
    indices are stored last axis first (NumPy's shape (4, 3, 2) is [2; 3; 4]),
    because broadcasting aligns axes at the last one.  Only indices within the
    shape are meaningful. *)
From Coq Require Import String Reals ZArith List Bool Arith.
From Coquelicot Require Import Complex.
From Verif Require Import Num.
Import ListNotations.
Open Scope nat_scope.

Record arr (A : Type) := mkArr { shp : list nat; at_ : list nat -> A }.
Arguments mkArr {A}. Arguments shp {A}. Arguments at_ {A}.

(** a NumPy or Python scalar: a 0-dimensional array *)
Definition scalar {A} (x : A) : arr A := mkArr [] (fun _ => x).

(** NumPy's broadcasting rule *)
Definition bdim (a b : nat) : option nat :=
  if Nat.eqb a b then Some a
  else if Nat.eqb a 1 then Some b
  else if Nat.eqb b 1 then Some a
  else None.
Fixpoint bshape (s t : list nat) : option (list nat) :=
  match s, t with
  | [], _ => Some t
  | _, [] => Some s
  | a :: s', b :: t' =>
      match bdim a b, bshape s' t' with
      | Some d, Some r => Some (d :: r)
      | _, _ => None
      end
  end.
(** index into an operand of shape [s] that corresponds to the index [i] of the
    broadcast result: axes of length one are repeated, missing ones dropped *)
Fixpoint bidx (s i : list nat) : list nat :=
  match s with
  | [] => []
  | d :: s' => (if Nat.eqb d 1 then O else hd O i) :: bidx s' (tl i)
  end.

Definition msg_broadcast : string :=
  "operands could not be broadcast together".

(** a ufunc of one and of two array arguments *)
Definition amap {A B} (f : A -> B) (a : arr A) : arr B := mkArr (shp a) (fun i => f (at_ a i)).
Definition amap2 {A B D} (f : A -> B -> D) (a : arr A) (b : arr B) : res (arr D) :=
  match bshape (shp a) (shp b) with
  | None => Raise (ValueError msg_broadcast)
  | Some s => Ok (mkArr s (fun i => f (at_ a (bidx (shp a) i)) (at_ b (bidx (shp b) i))))
  end.

(** [a[..., np.newaxis, np.newaxis]] *)
Definition newaxis2 {A} (a : arr A) : arr A :=
  mkArr (1 :: 1 :: shp a) (fun i => at_ a (tl (tl i))).

(** A non-empty-dimensional array seen along its first axis: the common shape
    of the slices [a[k]] and the list of slices.  Represents the array of shape
    (length, *shape). *)
Record layers (A : Type) := mkLayers { lsh : list nat; lay : list (list nat -> A) }.
Arguments mkLayers {A}. Arguments lsh {A}. Arguments lay {A}.

(** [for x in a] / [a[k]] *)
Definition slices {A} (l : layers A) : list (arr A) := map (mkArr (lsh l)) (lay l).
(** the same array in the first representation *)
Definition stacked {A} (d : A) (l : layers A) : arr A :=
  mkArr (lsh l ++ [length (lay l)])
        (fun i => nth (last i O) (lay l) (fun _ => d) (removelast i)).

(** joint broadcast shape of several shapes *)
Fixpoint bshapes (l : list (list nat)) : option (list nat) :=
  match l with
  | [] => Some []
  | a :: l' => match bshapes l' with Some s => bshape a s | None => None end
  end.
(** [np.asanyarray(np.broadcast_arrays( *val ))].  No argument at all gives the
    empty array of shape (0,). *)
Definition broadcast_arrays {A} (l : list (arr A)) : res (layers A) :=
  match bshapes (map shp l) with
  | None => Raise (ValueError msg_broadcast)
  | Some s => Ok (mkLayers s (map (fun a i => at_ a (bidx (shp a) i)) l))
  end.

(** _utils.py:4-9 [_pad_for_broadcasting]: a list of numbers as an array of
    shape (n, 1, ..., 1) with as many ones as the largest number of dimensions
    of [broadcast_with] (given by their shapes) *)
Definition ndim_max (broadcast_with : list (list nat)) : nat :=
  fold_right Nat.max O (map (@length nat) broadcast_with).
Definition pad_for_broadcasting {A} (d : A) (l : list A) (broadcast_with : list (list nat)) : arr A :=
  mkArr (repeat 1 (ndim_max broadcast_with) ++ [length l]) (fun i => nth (last i O) l d).

(** [np.sum(a, axis=0)] of a complex array; a 0-dimensional array has no axis *)
Definition sum_axis0 (a : arr CV) : arr CV :=
  mkArr (removelast (shp a))
        (fun i => csum (map (fun k => at_ a (i ++ [k])) (seq 0 (last (shp a) O)))).

Definition msg_matmul : string := "matmul: mismatch in core dimension".
(** batched [a @ b] *)
Definition matmul (a b : arr CV) : res (arr CV) :=
  match shp a, shp b with
  | ca :: ra :: s, cb :: rb :: t =>
      if Nat.eqb ca rb then
        match bshape s t with
        | None => Raise (ValueError msg_broadcast)
        | Some u =>
            Ok (mkArr (cb :: ra :: u)
                 (fun i => match i with
                  | c :: r :: j =>
                      csum (map (fun k => cmul (at_ a (k :: r :: bidx s j)) (at_ b (c :: k :: bidx t j)))
                                (seq 0 ca))
                  | _ => None
                  end))
        end
      else Raise (ValueError msg_matmul)
  | _, _ => Raise (ValueError msg_matmul)
  end.
