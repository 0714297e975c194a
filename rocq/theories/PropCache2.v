(** * Properties (generated by tools/gen_prop.py from ProofsCache2.v; statements
    only, each proved there) *)
From Coq Require Import String Reals Lra Lia ZArith List Bool.
From Coquelicot Require Import Complex.
From Verif Require Import Num NumLemmas ModelBase ModelSample ModelTip ModelCache Spec SpecCache ProofsPassive ProofsCache.
Import ListNotations.
Open Scope R_scope.
From Verif Require Import ProofsCache2.

(** C92. With an integer of any type as the order the cache cannot be noticed: after any
    program whatsoever a call returns, or raises, what the function without cache does. *)
Theorem C92_integer_orders :
  forall (rule : laggauss_t) (D : Defaults) (d : pyarg) (p : list stmt) (x : stmt) (v : pyarg) (n : Z),
  let st := exec rule p (fresh D d) in
  order_of x st = Some v -> py_index v = Some n ->
  snd (step rule x st) = uncached rule (s_defaults st) x (Z.to_nat n).
Proof. exact C92_integer_orders_proof. Qed.
Print Assumptions C92_integer_orders.

(** C92. With anything else as the order a call either does what it would do in a fresh session
    (a TypeError, unless the method needs no rule), or what it does for the integer
    of the same value; the latter only if that value has been used before, as a
    NumPy integer or bool. *)
Theorem C92_other_orders :
  forall (rule : laggauss_t) (D : Defaults) (d : pyarg) (p : list stmt) (x : stmt) (v : pyarg),
  let st := exec rule p (fresh D d) in
  order_of x st = Some v -> py_index v = None ->
  snd (step rule x st) = snd (step rule x (fresh (s_defaults st) (s_n_lag st))) \/
  exists k : Z, (0 < k)%Z /\ number v = Some (RtoC (IZR k)) /\ In (PyIndex k) (orders rule p (fresh D d)) /\
    snd (step rule x st) = uncached rule (s_defaults st) x (Z.to_nat k).
Proof. exact C92_other_orders_proof. Qed.
Print Assumptions C92_other_orders.

(** C92. Once a charge has been put over any sample with the NumPy integer [k] as the order, the
    float or complex number of the same value is accepted as the order of every
    later call, for good, with the result that [k] gives. *)
Theorem C92_float_after_numpy :
  forall (rule : laggauss_t) (D : Defaults) (d : pyarg) (p q : list stmt) (s : sample) (z : R) (k : Z) (x : stmt) (v : pyarg),
  let st := exec rule (p ++ AboveSurf s z (Some (PyIndex k)) :: q) (fresh D d) in
  (0 < k)%Z -> order_of x st = Some v -> number v = Some (RtoC (IZR k)) ->
  snd (step rule x st) = uncached rule (s_defaults st) x (Z.to_nat k).
Proof. exact C92_float_after_numpy_proof. Qed.
Print Assumptions C92_float_after_numpy.

(** C92. So the same call can fail or succeed, depending on what the session did before: a float as the order
    is rejected at first, also after the [int] of the same value has been used, and
    accepted after the NumPy integer. *)
Theorem C92_history_matters_refuted :
  forall (rule : laggauss_t) (D : Defaults) (d : pyarg),
  let s := stack [RtoC 1; RtoC 3] [] None in
  let go n := AboveSurf s 1 (Some n) in
  snd (step rule (go (PyFloat 4)) (fresh D d)) = Raise TypeError /\
  snd (step rule (go (PyFloat 4)) (exec rule [go (PyInt 4)] (fresh D d))) = Raise TypeError /\
  snd (step rule (go (PyFloat 4)) (exec rule [go (PyInt 4); go (PyIndex 4)] (fresh D d))) =
  snd (step rule (go (PyInt 4)) (fresh D d)) /\
  exists b, snd (step rule (go (PyInt 4)) (fresh D d)) = Ok (VC b).
Proof. exact C92_history_matters_refuted_proof. Qed.
Print Assumptions C92_history_matters_refuted.

(** C92. A call with an unusable order leaves the cache as it was. *)
Theorem C92_rejected_orders :
  forall (rule : laggauss_t) (st : session) (x : stmt) (v : pyarg),
  order_of x st = Some v -> (forall n, py_index v = Some n -> (n <= 0)%Z) ->
  s_cache (fst (step rule x st)) = s_cache st.
Proof. exact C92_rejected_orders_proof. Qed.
Print Assumptions C92_rejected_orders.

(** C92. In a whole session NumPy's function is run at most twice for each order, and at most
    once if the order is always given as an [int]. *)
Theorem C92_computed_once :
  forall (rule : laggauss_t) (D : Defaults) (d : pyarg) (p : list stmt) (n : Z),
  let times := count_occ Z.eq_dec (computed (s_cache (exec rule p (fresh D d)))) n in
  (times <= 2)%nat /\ (~ In (PyIndex n) (orders rule p (fresh D d)) -> (times <= 1)%nat).
Proof. exact C92_computed_once_proof. Qed.
Print Assumptions C92_computed_once.

(** C92. A concrete session: a default is changed, an order is rejected, and the order four is used as an [int], as a
    NumPy integer and by default; both bounds above are reached, and the next call is the one without cache. *)
Example C92_session_example :
  forall (rule : laggauss_t) (D : Defaults),
  let s := stack [RtoC 1; RtoC 3; RtoC 5] [1] None in
  let go n := AboveSurf s 1 n in
  let p := [go (Some (PyInt 4)); go (Some (PyInt (-4))); SetNLag (PyIndex 4); SurfPot s 2 None; go (Some (PyInt 4))] in
  let st := exec rule p (fresh D (PyInt 32)) in
  computed (s_cache (exec rule (firstn 3 p) (fresh D (PyInt 32)))) = [4%Z] /\
  computed (s_cache st) = [4%Z; 4%Z] /\
  snd (step rule (EffPol s None None None None None None None None (Some "Q_ave"%string)) st) =
  uncached rule D (EffPol s None None None None None None None None (Some "Q_ave"%string)) 4.
Proof. exact C92_session_example_proof. Qed.
