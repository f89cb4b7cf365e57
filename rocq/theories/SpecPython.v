(** Specification of the Python bindings: vocabulary of the property theorems. *)
From Coq Require Import List ZArith Bool Arith.
From Verif Require Import Base ModelBox ModelBuild ModelSearch ModelSerial ModelPython Spec.
Import ListNotations.
Local Open Scope nat_scope.

(** [k] cells of memory from [base] on. *)
Definition cells {A} (base k : nat) (mem : list A) : list A := firstn k (skipn base mem).

(** The C++ searches, with and without [e]. *)
Definition range_search {T} {SC : Scalar T} (t : kd_tree T) (e : option T) (x : list T) (range : list (neighbor T))
  : res (list (neighbor T)) :=
  match e with Some e => search_knn_range_approx t x e range | None => search_knn_range t x range end.
Definition radius_search {T} {SC : Scalar T} (alg : std_algos) (t : kd_tree T) (radius : T) (e : option T) (sort : bool)
    (x : list T) : res (list (neighbor T)) :=
  match e with Some e => search_radius_approx alg t x radius e sort | None => search_radius alg t x radius sort end.

(** * NumPy arrays *)

(** The position in memory of the element with the given indices. *)
Definition nd_addr {A} (a : ndarray A) (idx : list nat) : Z :=
  (Z.of_nat (nd_off a)
   + fold_right Z.add 0 (map (fun is_ => Z.of_nat (fst is_) * snd is_) (combine idx (nd_strides a))))%Z.

(** The element with the given indices, a[idx]. *)
Definition nd_get {A} (a : ndarray A) (idx : list nat) : option A :=
  if (nd_addr a idx <? 0)%Z then None else nth_error (nd_buf a) (Z.to_nat (nd_addr a idx)).

(** All elements lie in memory. *)
Definition nd_ok {A} (a : ndarray A) : Prop :=
  length (nd_strides a) = length (nd_shape a)
  /\ nd_off a <= length (nd_buf a)
  /\ forall idx, Forall2 lt idx (nd_shape a) -> exists x, nd_get a idx = Some x.

(** The NumPy array [a] denotes the points of [sp]: the rows of a C-contiguous
    array, the columns of one that is only F-contiguous. *)
Definition denotes {T} (a : ndarray T) (sp : space T) : Prop :=
  exists r c, nd_shape a = [r; c]
  /\ Forall (fun p => length p = sp_sdim sp) (sp_pts sp)
  /\ (if is_row_major a then
        length (sp_pts sp) = r /\ sp_sdim sp = c
        /\ forall i j, i < r -> j < c -> nth_error (nth i (sp_pts sp) []) j = nd_get a [i; j]
      else
        length (sp_pts sp) = c /\ sp_sdim sp = r
        /\ forall i j, i < c -> j < r -> nth_error (nth i (sp_pts sp) []) j = nd_get a [j; i]).

(** * Python lists *)

(** l[i] for a Python list, [None] when it raises IndexError. *)
Definition python_item {A} (l : list A) (i : Z) : option A :=
  let n := Z.of_nat (length l) in
  if (0 <=? i)%Z then nth_error l (Z.to_nat i)
  else if (0 <=? n + i)%Z then nth_error l (Z.to_nat (n + i)) else None.

(** l[i:j:k] (Python library reference, "Common sequence operations", notes 3
    to 5): "the sequence of items with index x = i + m*k such that
    0 <= m < (j-i)/k"; negative bounds count from the end; bounds are reduced
    to the length of the list; missing bounds are "end" values that depend on
    the sign of k. *)
Definition python_bound (n k : Z) (missing : Z) (x : option Z) : Z :=
  match x with
  | None => missing
  | Some x =>
      let y := (if x <? 0 then x + n else x)%Z in
      if (0 <? k)%Z then Z.max 0 (Z.min n y) else Z.max (-1) (Z.min (n - 1) y)
  end.
Definition python_slice {A} (l : list A) (start stop : option Z) (k : Z) (r : list A) : Prop :=
  let n := Z.of_nat (length l) in
  let i := python_bound n k (if 0 <? k then 0 else n - 1)%Z start in
  let j := python_bound n k (if 0 <? k then n else -1)%Z stop in
  forall m : nat,
  nth_error r m =
    if (if 0 <? k then Z.of_nat m * k <? j - i else j - i <? Z.of_nat m * k)%Z
    then nth_error l (Z.to_nat (i + Z.of_nat m * k)) else None.

(** A file. *)
Definition bytes (b : list Z) : Prop := Forall (fun x => (0 <= x < 256)%Z) b.

(** The tree uses one of the metrics of the bindings. *)
Definition bindings_tree {T} {SC : Scalar T} (t : py_tree T) : Prop :=
  kt_metric (pt_tree t) = metric_impl (pt_metric t).

(** Every iteration of a loop of [n] iterations gets at least [N] turns. *)
Definition fair (n N : nat) (sched : list nat) : Prop :=
  forall i, i < n -> N <= count_occ Nat.eq_dec sched i.

(** A two-dimensional contiguous array of the points [sp]. *)
Record points_array {T} (a : ndarray T) (sp : space T) : Prop := {
  pa_ok : nd_ok a;
  pa_contiguous : is_contiguous a = true;
  pa_denotes : denotes a sp
}.

(** The metrics of the bindings for which nearest searches are exact. *)
Definition exact_for (m : metric_t) (em : exact_metric) : Prop :=
  match m with
  | MetricL1 => em = L1
  | MetricL2Squared => em = L2Squared
  | MetricLPInf => False
  end.

(** Arguments with which a tree can be made. *)
Record tree_args {T} (pts : ndarray T) (sp : space T) (leaf : Z) : Prop := {
  ta_points : points_array pts sp;
  ta_dtype : nd_dtype pts = DtFloat32 \/ nd_dtype pts = DtFloat64;
  ta_some : sp_pts sp <> [];
  ta_dim : 1 <= sp_sdim sp;
  ta_count : (Z.of_nat (length (sp_pts sp)) < 2 ^ 31)%Z;
  ta_leaf : (0 < leaf < 2 ^ 31)%Z
}.

(** Arguments with which a tree over [pts] can be queried. *)
Record query_args {T} (pts : ndarray T) (sp : space T) (queries : ndarray T) (qs : space T) : Prop := {
  qa_points : points_array queries qs;
  qa_dtype : nd_dtype queries = nd_dtype pts;
  qa_dim : sp_sdim qs = sp_sdim sp
}.

(** numpy.asarray(tree): a view of the memory of the points through the buffer
    that the tree describes. *)
Definition tree_view {T} (t : py_tree T) (pts : ndarray T) : ndarray T :=
  NdArray (nd_buf pts) (nd_off pts) (fst (py_request t)) (snd (py_request t)) false (pt_dtype t).
