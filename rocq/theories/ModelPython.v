(** Model of the Python bindings: NumPy arrays as spaces, batched queries, the
    DArray class and the file header.

    Citations are relative to /repo.  [PT] abbreviates src/pico_tree/pico_tree and
    [PY] src/pyco_tree/pico_tree/_pyco_tree. *)
From Coq Require Import Ascii String List ZArith Bool Arith.
From Verif Require Import Base ModelBox ModelBuild ModelSearch ModelSerial.
Import ListNotations.
Local Open Scope nat_scope.

(** The exceptions the bindings raise. *)
Inductive exn : Type :=
| ExnInvalidArgument | ExnRuntimeError | ExnIndexError | ExnValueError.

(** A call from Python returns a value or raises; or it is undefined. *)
Definition py (A : Type) : Type := res (exn + A).
Definition ret {A} (a : A) : py A := Ok (inr a).
Definition throw {A} (e : exn) : py A := Ok (inl e).
Definition pbind {A B} (r : py A) (f : A -> py B) : py B :=
  do x <- r; match x with inl e => Ok (inl e) | inr a => f a end.
Definition lift {A} (r : res A) : py A := do a <- r; Ok (inr a).
Definition throw_if (b : bool) (e : exn) : py unit := if b then throw e else ret tt.

Notation "'let!' x <- e ; f" := (pbind e (fun x => f))
  (at level 200, x pattern, e at level 100, f at level 200).

(** * NumPy arrays *)

(** dtypes the bindings look at. *)
Inductive dtype : Type := DtFloat32 | DtFloat64 | DtNeighbor32 | DtNeighbor64 | DtInt32 | DtOther.
Definition dtype_eqb (a b : dtype) : bool :=
  match a, b with
  | DtFloat32, DtFloat32 | DtFloat64, DtFloat64 | DtNeighbor32, DtNeighbor32
  | DtNeighbor64, DtNeighbor64 | DtInt32, DtInt32 | DtOther, DtOther => true
  | _, _ => false
  end.

(** An ndarray: the whole block of memory it views, the position of its first
    element in it, shape, strides (in elements) and whether it owns the memory.
    Not a transcription: the interface of NumPy as seen through pybind11.
    Simplification: strides are multiples of the item size. *)
Record ndarray (A : Type) : Type := NdArray {
  nd_buf : list A;
  nd_off : nat;
  nd_shape : list nat;
  nd_strides : list Z;
  nd_owns : bool;
  nd_dtype : dtype
}.
Arguments NdArray {A} _ _ _ _ _ _.
Arguments nd_buf {A} _.
Arguments nd_off {A} _.
Arguments nd_shape {A} _.
Arguments nd_strides {A} _.
Arguments nd_owns {A} _.
Arguments nd_dtype {A} _.

(** NumPy's contiguity flags: walk from the fastest axis; axes of length one
    are ignored; empty arrays are contiguous. *)
Fixpoint contiguous_from (sd : Z) (l : list (nat * Z)) : bool :=
  match l with
  | [] => true
  | (d, s) :: r =>
      if d =? 1 then contiguous_from sd r
      else (s =? sd)%Z && contiguous_from (sd * Z.of_nat d) r
  end.
Definition nd_empty {A} (a : ndarray A) : bool := existsb (Nat.eqb 0) (nd_shape a).
(** PY/core.hpp:39-41: is_row_major (the C_CONTIGUOUS flag). *)
Definition is_row_major {A} (a : ndarray A) : bool :=
  nd_empty a || contiguous_from 1 (rev (combine (nd_shape a) (nd_strides a))).
(** PY/core.hpp:43-45: is_col_major (the F_CONTIGUOUS flag). *)
Definition is_col_major {A} (a : ndarray A) : bool :=
  nd_empty a || contiguous_from 1 (combine (nd_shape a) (nd_strides a)).
(** PY/core.hpp:47-49: is_contiguous. *)
Definition is_contiguous {A} (a : ndarray A) : bool := is_row_major a || is_col_major a.

(** array.size(): the number of elements. *)
Definition nd_size {A} (a : ndarray A) : nat := fold_right Nat.mul 1 (nd_shape a).

(** PY/core.hpp:51-66: array_layout::inner_stride and outer_stride; they read
    the vector [shape] without a check. *)
Definition inner_stride {A} (a : ndarray A) : res nat :=
  at_ (nd_shape a) (if is_row_major a then 1 else 0).
Definition outer_stride {A} (a : ndarray A) : res nat :=
  at_ (nd_shape a) (if is_row_major a then 0 else 1).

(** PT/map.hpp:153-161: point [i] of a space_map over [buf] starting at [off];
    reading outside of the memory is undefined. *)
Definition map_point {T} (buf : list T) (off sdim i : nat) : res (list T) :=
  do _ <- guard (off + i * sdim + sdim <=? length buf) UbIndex;
  Ok (firstn sdim (skipn (off + i * sdim) buf)).
Fixpoint map_points {T} (buf : list T) (off sdim i n : nat) : res (list (list T)) :=
  match n with
  | O => Ok []
  | S n' =>
      do p <- map_point buf off sdim i;
      do r <- map_points buf off sdim (S i) n';
      Ok (p :: r)
  end.

(** PY/py_array_map.hpp:17-34: a space_map that remembers the order.
    Simplification: the points are read when the map is made; the array is
    assumed not to change while the map is in use. *)
Record py_array_map (T : Type) : Type := PyArrayMap { pm_space : space T; pm_row_major : bool }.
Arguments PyArrayMap {T} _ _.
Arguments pm_space {T} _.
Arguments pm_row_major {T} _.

(** PY/core.hpp:68-76: is_dim_compatible<Dim_>; [None] is dynamic_extent. *)
Definition is_dim_compatible (dim : option nat) (d : nat) : bool :=
  match dim with Some n => n =? d | None => true end.

(** PY/py_array_map.hpp:36-62: make_map. *)
Definition make_map {T} (dim : option nat) (a : ndarray T) : py (py_array_map T) :=
  let! _ <- throw_if (negb (length (nd_shape a) =? 2)) ExnInvalidArgument;
  let! _ <- throw_if (negb (is_contiguous a)) ExnInvalidArgument;
  let! inner <- lift (inner_stride a);
  let! _ <- throw_if (negb (is_dim_compatible dim inner)) ExnInvalidArgument;
  let! outer <- lift (outer_stride a);
  let! pts <- lift (map_points (nd_buf a) (nd_off a) inner 0 outer);
  ret (PyArrayMap (Space inner pts) (is_row_major a)).

(** NumPy's PyArray_Resize, which pybind11's array::resize calls with refcheck
    off: fails unless the array is contiguous and owns its memory; keeps the
    memory (extended by zeros); the new strides are C order unless the array
    was F and not C contiguous. *)
Fixpoint c_strides (shape : list nat) : list Z :=
  match shape with
  | [] => []
  | _ :: r => Z.of_nat (fold_right Nat.mul 1 r) :: c_strides r
  end.
Fixpoint f_strides (sd : Z) (shape : list nat) : list Z :=
  match shape with
  | [] => []
  | d :: r => sd :: f_strides (sd * Z.of_nat d) r
  end.
Definition nd_resize {A} (zero : A) (a : ndarray A) (shape : list nat) : py (ndarray A) :=
  let! _ <- throw_if (negb (is_contiguous a)) ExnValueError;
  let n := fold_right Nat.mul 1 shape in
  if n =? nd_size a then
    ret (NdArray (nd_buf a) (nd_off a) shape
           (if is_row_major a then c_strides shape else f_strides 1 shape) (nd_owns a) (nd_dtype a))
  else
    let! _ <- throw_if (negb (nd_owns a)) ExnValueError;
    let old := firstn n (skipn (nd_off a) (nd_buf a)) in
    ret (NdArray (old ++ repeat zero (n - length old)) 0 shape
           (if is_row_major a then c_strides shape else f_strides 1 shape) true (nd_dtype a)).

(** * Parallel loops *)

(** A computation that accesses shared memory one cell at a time.  Not a
    transcription: the granularity at which iterations of a parallel loop may
    interleave. *)
Inductive prog (A B : Type) : Type :=
| Done (r : res B)
| Read (a : nat) (k : A -> prog A B)
| Write (a : nat) (x : A) (k : prog A B).
Arguments Done {A B} _.
Arguments Read {A B} _ _.
Arguments Write {A B} _ _ _.

(** Sequencing. *)
Fixpoint prog_bind {A B C} (p : prog A B) (f : B -> prog A C) : prog A C :=
  match p with
  | Done (Ok b) => f b
  | Done (Ub w) => Done (Ub w)
  | Done OutOfFuel => Done OutOfFuel
  | Read a k => Read a (fun x => prog_bind (k x) f)
  | Write a x k => Write a x (prog_bind k f)
  end.
Notation "'run' x <- p ; f" := (prog_bind p (fun x => f))
  (at level 200, x pattern, p at level 100, f at level 200).

(** One access.  An access outside of the memory is undefined. *)
Definition prog_step {A B} (p : prog A B) (mem : list A) : res (prog A B * list A) :=
  match p with
  | Done r => do b <- r; Ok (Done (Ok b), mem)
  | Read a k => do x <- at_ mem a; Ok (k x, mem)
  | Write a x k => do _ <- guard (a <? length mem) UbIndex; Ok (k, set_nth mem a x)
  end.

(** PY/kd_tree.hpp:128, 160, 192, 225, 260: #pragma omp parallel for.  [sched]
    says which iteration makes the next access: any interleaving, so in
    particular those of any number of threads running chunks of iterations.
    Simplification: accesses are sequentially consistent. *)
Fixpoint par_run {A B} (sched : list nat) (ps : list (prog A B)) (mem : list A)
  : res (list (prog A B) * list A) :=
  match sched with
  | [] => Ok (ps, mem)
  | i :: r =>
      match nth_error ps i with
      | Some p => do (p', mem') <- prog_step p mem; par_run r (set_nth ps i p') mem'
      | None => par_run r ps mem
      end
  end.
Definition is_done {A B} (p : prog A B) : bool := match p with Done (Ok _) => true | _ => false end.
(** The memory after the loop; OutOfFuel: [sched] stops before the loop ends. *)
Definition par_for {A B} (sched : list nat) (ps : list (prog A B)) (mem : list A) : res (list A) :=
  do (ps', mem') <- par_run sched ps mem;
  if forallb is_done ps' then Ok mem' else OutOfFuel.

Section Programs.
Context {T : Type} {SC : Scalar T}.
Local Open Scope scalar_scope.
Variable alg : std_algos.

(** A search visitor that keeps its results in shared memory of cells [A] and
    the rest of its state, [L], to itself. *)
Record mvisitor (A L : Type) : Type := MVisitor {
  mv_visit : nat -> T -> L -> prog A L;
  mv_max : L -> prog A T
}.
Arguments MVisitor {A L} _ _.
Arguments mv_visit {A L} _.
Arguments mv_max {A L} _.

(** PT/internal/search_visitor.hpp:24-38: insert_sorted on memory: [base] is
    the first cell of the range, [p] as in [insert_sorted_loop]. *)
Fixpoint insert_prog (base p : nat) (item : neighbor T) : prog (neighbor T) unit :=
  match p with
  | O => Write base item (Done (Ok tt))
  | S p' =>
      Read (base + p')%nat (fun prev =>
        if neighbor_lt item prev
        then Write (base + p)%nat prev (insert_prog base p' item)
        else Write (base + p)%nat item (Done (Ok tt)))
  end.

(** The distance a visitor compares and stores: itself, or times 1/e (PT/internal/
    search_visitor.hpp:222-224, 269-271). *)
Definition scaled (e : option T) (d : T) : T :=
  match e with Some e => d * (s_one / e) | None => d end.

(** PT/internal/search_visitor.hpp:82-123, 196-247: search_knn and
    search_approximate_knn on the cells base ... base + k; the local state is
    active_end_. *)
Definition knn_mvisitor (e : option T) (base k : nat) : mvisitor (neighbor T) nat :=
  MVisitor
    (fun idx dst active =>
       Read (base + k - 1)%nat (fun lst =>
         if scaled e dst <? n_distance lst then
           let active' := if (active <? k)%nat then (active + 1)%nat else active in
           run _ <- insert_prog base (active' - 1)%nat (Neighbor idx (scaled e dst));
           Done (Ok active')
         else Done (Ok active)))
    (fun _ => Read (base + k - 1)%nat (fun lst => Done (Ok (n_distance lst)))).

(** PT/internal/search_visitor.hpp:126-156, 253-288: search_radius and
    search_approximate_radius; cell [c] is the output vector. *)
Definition radius_mvisitor (e : option T) (radius : T) (c : nat) : mvisitor (list (neighbor T)) unit :=
  MVisitor
    (fun idx dst _ =>
       if scaled e dst <? scaled e radius then
         Read c (fun n => Write c (n ++ [Neighbor idx (scaled e dst)]) (Done (Ok tt)))
       else Done (Ok tt))
    (fun _ => Done (Ok (scaled e radius))).

Section Search.
Context {A L : Type}.
Variables (m : metric T) (mv : mvisitor A L) (sp : space T) (indices : list nat) (q : list T).

(** PT/internal/kd_tree_search.hpp:57-59. *)
Fixpoint visit_prog (l : list nat) (st : L) : prog A L :=
  match l with
  | [] => Done (Ok st)
  | i :: r =>
      run _ <- Done (guard (in_space sp i) UbIndex);
      run st' <- mv_visit mv i (m_dist m q (sp_at sp i)) st;
      visit_prog r st'
  end.

(** PT/internal/kd_tree_search.hpp:52-105: search_nearest_euclidean. *)
Fixpoint nearest_prog (n : node (branch_single T)) (node_box_distance : T) (st : list T * L)
  : prog A (list T * L) :=
  match n with
  | Leaf b e =>
      run is_ <- Done (slice indices b e);
      run l' <- visit_prog is_ (snd st);
      Done (Ok (fst st, l'))
  | Branch br nl nr =>
      let split_dim := bs_split_dim br in
      run v <- Done (at_ q split_dim);
      let go_left := s_zero <? (bs_left_max br + bs_right_min br - v - v) in
      let new_offset :=
        if go_left then m_app m (bs_right_min br - v) else m_app m (bs_left_max br - v) in
      run st1 <- nearest_prog (if go_left then nl else nr) node_box_distance st;
      run old_offset <- Done (at_ (fst st1) split_dim);
      let node_box_distance' := node_box_distance - old_offset + new_offset in
      run mx <- mv_max mv (snd st1);
      if node_box_distance' <=? mx then
        run st2 <- nearest_prog (if go_left then nr else nl) node_box_distance'
                     (set_nth (fst st1) split_dim new_offset, snd st1);
        Done (Ok (set_nth (fst st2) split_dim old_offset, snd st2))
      else Done (Ok st1)
  end.
End Search.

(** PT/kd_tree.hpp:106-120, 382-408: search_nearest.  The bindings only have
    Euclidean metrics; another category does not occur. *)
Definition search_prog {A L} (t : kd_tree T) (mv : mvisitor A L) (x : list T) (l0 : L) : prog A L :=
  run _ <- Done (guard (length x =? sp_sdim (kt_space t))%nat UbDim);
  match m_cat (kt_metric t) as c return kd_tree_data c T -> prog A L with
  | Euclidean => fun data =>
      run st <- nearest_prog (kt_metric t) mv (kt_space t) (kd_indices data) x (kd_root data) s_zero
                  (tab (sp_sdim (kt_space t)) (fun _ => s_zero), l0);
      Done (Ok (snd st))
  | Topological => fun _ => Done (Ub UbAssert)
  end (kt_data t).

(** PY/kd_tree.hpp:128-134, 160-168: one iteration of search_knn's loop:
    PT/kd_tree.hpp:168-181, 204-218 on the cells off + i * k ... off + i * k + k.
    The visitor's constructor (PT/internal/search_visitor.hpp:98-103) writes the
    last cell; undefined when there is none. *)
Definition knn_program (t : kd_tree T) (e : option T) (off k i : nat) (q : list T)
  : prog (neighbor T) unit :=
  let base := (off + i * k)%nat in
  match k with
  | O => Done (Ub UbIndex)
  | S _ =>
      Read (base + k - 1)%nat (fun old =>
        Write (base + k - 1)%nat (Neighbor (n_index old) s_max)
          (run _ <- search_prog t (knn_mvisitor e base k) q 0%nat;
           Done (Ok tt)))
  end.
Definition knn_programs (t : kd_tree T) (e : option T) (off k : nat) (qs : list (list T))
  : list (prog (neighbor T) unit) :=
  map (fun iq => knn_program t e off k (fst iq) (snd iq)) (combine (seq 0 (length qs)) qs).

(** PY/kd_tree.hpp:194-199, 227-232: one iteration of search_radius's loop:
    PT/kd_tree.hpp:256-268, 277-290 with output vector [i]. *)
Definition radius_program (t : kd_tree T) (radius : T) (e : option T) (sort : bool) (i : nat) (q : list T)
  : prog (list (neighbor T)) unit :=
  Write i []
    (run _ <- search_prog t (radius_mvisitor e radius i) q tt;
     if sort then Read i (fun n => Write i (std_sort alg _ neighbor_lt n) (Done (Ok tt)))
     else Done (Ok tt)).
Definition radius_programs (t : kd_tree T) (radius : T) (e : option T) (sort : bool) (qs : list (list T))
  : list (prog (list (neighbor T)) unit) :=
  map (fun iq => radius_program t radius e sort (fst iq) (snd iq)) (combine (seq 0 (length qs)) qs).

(** PY/kd_tree.hpp:261-267: one iteration of search_box's loop: PT/kd_tree.hpp:
    295-318 with output vector [i].  Simplification: the vector is written at
    the beginning (clear) and at the end (all its indices). *)
Definition box_program (t : kd_tree T) (qs : list (list T)) (i : nat) : prog (list nat) unit :=
  run mn <- Done (at_ qs (i * 2)%nat);
  run mx <- Done (at_ qs (i * 2 + 1)%nat);
  Write i []
    (run idxs <- Done (search_box t mn mx);
     Write i idxs (Done (Ok tt))).
Definition box_programs (t : kd_tree T) (qs : list (list T)) (n : nat) : list (prog (list nat) unit) :=
  map (box_program t qs) (seq 0 n).
End Programs.
Arguments mvisitor T A L : clear implicits.
Arguments MVisitor {T A L} _ _.
Arguments mv_visit {T A L} _.
Arguments mv_max {T A L} _.

(** * Trees *)

(** PY/kd_tree.hpp:17: metric_t. *)
Inductive metric_t : Type := MetricL1 | MetricL2Squared | MetricLPInf.

Section Trees.
Context {T : Type} {SC : Scalar T}.
Variable alg : std_algos.

(** PY/kd_tree.hpp:384-404: make_kd_tree_from_metric's choice of metric. *)
Definition metric_impl (m : metric_t) : metric T :=
  match m with
  | MetricL1 => metric_l1
  | MetricL2Squared => metric_l2_squared
  | MetricLPInf => metric_lpinf
  end.

(** PY/kd_tree.hpp:91-115, 380: kd_tree_impl<py_array_map<Scalar_, Dim_>, Metric_>. *)
Record py_tree : Type := PyTree {
  pt_tree : kd_tree T;
  pt_metric : metric_t;
  pt_dim : option nat;
  pt_row_major : bool;
  pt_dtype : dtype
}.

(** PY/kd_tree.hpp:413-423: the compile-time dimension. *)
Definition dim_of (inner : nat) : option nat :=
  match inner with 2 => Some 2 | 3 => Some 3 | _ => None end.

(** PY/kd_tree.hpp:426-438: float or double. *)
Definition is_scalar_dtype (d : dtype) : bool := dtype_eqb d DtFloat32 || dtype_eqb d DtFloat64.

(** PY/kd_tree.hpp:454-456, 440-445, 426-438, 406-424, 109-112 and
    PT/kd_tree.hpp:90-92: KdTree(pts, metric, max_leaf_size).  The shape is
    read (line 413) before make_map checks the number of axes. *)
Definition py_kd_tree (fuel : nat) (pts : ndarray T) (m : metric_t) (leaf : Z) : py py_tree :=
  let! _ <- throw_if (negb (is_scalar_dtype (nd_dtype pts))) ExnInvalidArgument;
  let! inner <- lift (inner_stride pts);
  let dim := dim_of inner in
  let! map <- make_map dim pts;
  let! t <- lift (kd_tree_make alg it_int (metric_impl m) fuel (pm_space map) (max_leaf_size leaf)
                    bounds_from_space sliding_midpoint_max_side);
  ret (PyTree t m dim (pm_row_major map) (nd_dtype pts)).

(** PY/kd_tree.hpp:334-336: dtype_neighbor. *)
Definition neighbor_dtype (d : dtype) : dtype :=
  match d with DtFloat32 => DtNeighbor32 | _ => DtNeighbor64 end.

(** PY/kd_tree.hpp:362-378: ensure_size. *)
Definition ensure_size (query : py_array_map T) (k : nat) (nns : ndarray (neighbor T))
  : py (ndarray (neighbor T)) :=
  let n := sp_size (pm_space query) in
  if nd_size nns =? n * k then ret nns
  else if k =? 1 then nd_resize (Neighbor 0 s_zero) nns [n]
  else nd_resize (Neighbor 0 s_zero) nns (if pm_row_major query then [n; k] else [k; n]).

(** PY/kd_tree.hpp:117-135, 144-169: search_knn(pts, k, nns) and, with [e],
    search_knn(pts, k, e, nns); the result is [nns] afterwards.  [sched]: the
    interleaving of the parallel loop (see [par_for]).  Simplification: [nns] is
    writeable (mutable_data throws otherwise). *)
Definition py_search_knn_into (sched : list nat) (t : py_tree) (pts : ndarray T) (k : nat)
    (e : option T) (nns : ndarray (neighbor T)) : py (ndarray (neighbor T)) :=
  let! _ <- throw_if (negb (dtype_eqb (nd_dtype pts) (pt_dtype t))) ExnInvalidArgument;
  let! _ <- throw_if (negb (dtype_eqb (nd_dtype nns) (neighbor_dtype (pt_dtype t)))) ExnInvalidArgument;
  let! query <- make_map (pt_dim t) pts;
  let! nns' <- ensure_size query k nns;
  let! buf <- lift (par_for sched (knn_programs (pt_tree t) e (nd_off nns') k (sp_pts (pm_space query)))
                      (nd_buf nns'));
  ret (NdArray buf (nd_off nns') (nd_shape nns') (nd_strides nns') (nd_owns nns') (nd_dtype nns')).

(** PY/kd_tree.hpp:139: py::array_t<neighbor_type, 0> nns, an empty array. *)
Definition empty_nns (d : dtype) : ndarray (neighbor T) := NdArray [] 0 [0] [1%Z] true d.

(** PY/kd_tree.hpp:137-142, 171-177: search_knn(pts, k) and search_knn(pts, k, e). *)
Definition py_search_knn (sched : list nat) (t : py_tree) (pts : ndarray T) (k : nat) (e : option T)
  : py (ndarray (neighbor T)) :=
  py_search_knn_into sched t pts k e (empty_nns (neighbor_dtype (pt_dtype t))).

(** std::vector::resize of a vector of vectors. *)
Definition resize_vectors {A} (l : list (list A)) (n : nat) : list (list A) :=
  firstn n l ++ repeat [] (n - length l).

(** PY/kd_tree.hpp:179-200, 211-233: search_radius(pts, radius, nns, sort) and,
    with [e], search_radius(pts, radius, e, nns, sort): one vector per query;
    [nns] is the content of the DArray. *)
Definition py_search_radius_into (sched : list nat) (t : py_tree) (pts : ndarray T) (radius : T)
    (e : option T) (nns : list (list (neighbor T))) (sort : bool) : py (list (list (neighbor T))) :=
  let! _ <- throw_if (negb (dtype_eqb (nd_dtype pts) (pt_dtype t))) ExnInvalidArgument;
  let! query <- make_map (pt_dim t) pts;
  lift (par_for sched (radius_programs alg (pt_tree t) radius e sort (sp_pts (pm_space query)))
          (resize_vectors nns (sp_size (pm_space query)))).
(** PY/kd_tree.hpp:202-209, 235-243. *)
Definition py_search_radius (sched : list nat) (t : py_tree) (pts : ndarray T) (radius : T)
    (e : option T) (sort : bool) : py (list (list (neighbor T))) :=
  py_search_radius_into sched t pts radius e [] sort.

(** PY/kd_tree.hpp:245-268: search_box(boxes, indices): points 2i and 2i + 1
    are the corners of box i. *)
Definition py_search_box_into (sched : list nat) (t : py_tree) (boxes : ndarray T)
    (indices : list (list nat)) : py (list (list nat)) :=
  let! _ <- throw_if (negb (dtype_eqb (nd_dtype boxes) (pt_dtype t))) ExnInvalidArgument;
  let! query <- make_map (pt_dim t) boxes;
  let! _ <- throw_if (negb (sp_size (pm_space query) mod 2 =? 0)) ExnInvalidArgument;
  let n := sp_size (pm_space query) / 2 in
  lift (par_for sched (box_programs (pt_tree t) (sp_pts (pm_space query)) n) (resize_vectors indices n)).
(** PY/kd_tree.hpp:270-274. *)
Definition py_search_box (sched : list nat) (t : py_tree) (boxes : ndarray T) : py (list (list nat)) :=
  py_search_box_into sched t boxes [].

(** PY/kd_tree.hpp:292-315: request(): the tree as a read-only buffer. *)
Definition py_request (t : py_tree) : list nat * list Z :=
  let sdim := sp_sdim (kt_space (pt_tree t)) in
  let npts := sp_size (kt_space (pt_tree t)) in
  if pt_row_major t then ([npts; sdim], [Z.of_nat sdim; 1%Z])
  else ([sdim; npts], [1%Z; Z.of_nat sdim]).
End Trees.
Arguments py_tree T : clear implicits.

(** * DArray *)

(** Values of std::size_t and std::ptrdiff_t. *)
Definition to_size (z : Z) : Z := (z mod 2 ^ 64)%Z.
Definition to_diff (z : Z) : Z :=
  let r := (z mod 2 ^ 64)%Z in if (r <? 2 ^ 63)%Z then r else (r - 2 ^ 64)%Z.

(** An element by a size_t index; outside of the vector it is undefined. *)
Definition at_size {A} (l : list A) (i : Z) : res A :=
  if (i <? Z.of_nat (length l))%Z then at_ l (Z.to_nat i) else Ub UbIndex.

(** PY/def_darray.cpp:33-45: __getitem__(i).  [i += a.size()] is computed in
    size_t and converted back. *)
Definition darray_get {A} (a : list A) (i : Z) : py A :=
  let n := Z.of_nat (length a) in
  let i' := if (i <? 0)%Z then to_diff (to_size i + to_size n) else i in
  let! _ <- throw_if ((i' <? 0)%Z || (n <=? to_size i')%Z) ExnIndexError;
  lift (at_size a (to_size i')).

(** PY/darray.hpp:64-75: copy(begin, step, count), in size_t. *)
Fixpoint darray_copy {A} (a : list A) (begin step : Z) (count : nat) : res (list A) :=
  match count with
  | O => Ok []
  | S n =>
      do x <- at_size a begin;
      do r <- darray_copy a (to_size (begin + step)) step n;
      Ok (x :: r)
  end.

(** CPython's _PyEval_SliceIndex: Python integers are clipped to ssize_t. *)
Definition clip_ssize (x : Z) : Z := Z.max (- 2 ^ 63) (Z.min (2 ^ 63 - 1) x).

(** CPython's PySlice_AdjustIndices for one bound. *)
Definition adjust_index (n st x : Z) : Z :=
  if (x <? 0)%Z then
    (if (x + n <? 0)%Z then (if (st <? 0)%Z then (-1)%Z else 0%Z) else (x + n)%Z)
  else if (n <=? x)%Z then (if (st <? 0)%Z then (n - 1)%Z else n) else x.

(** CPython's PySlice_Unpack and PySlice_AdjustIndices (called by
    py::slice::compute, PY/def_darray.cpp:55): [None] is a missing bound.  The
    result: start, step and number of elements.  A step of zero raises. *)
Definition slice_compute (n : Z) (start stop step : option Z) : py (Z * Z * Z) :=
  let st := match step with Some s => Z.max (- (2 ^ 63 - 1)) (clip_ssize s) | None => 1%Z end in
  let! _ <- throw_if (st =? 0)%Z ExnValueError;
  let s0 := match start with
            | Some s => clip_ssize s
            | None => if (st <? 0)%Z then (2 ^ 63 - 1)%Z else 0%Z
            end in
  let e0 := match stop with
            | Some s => clip_ssize s
            | None => if (st <? 0)%Z then (- 2 ^ 63)%Z else (2 ^ 63 - 1)%Z
            end in
  let s1 := adjust_index n st s0 in
  let e1 := adjust_index n st e0 in
  let len := if (st <? 0)%Z then (if (e1 <? s1)%Z then ((s1 - e1 - 1) / (- st) + 1)%Z else 0%Z)
             else (if (s1 <? e1)%Z then ((e1 - s1 - 1) / st + 1)%Z else 0%Z) in
  ret (s1, st, len).

(** PY/def_darray.cpp:50-59: __getitem__(slice); the bounds become size_t. *)
Definition darray_slice {A} (a : list A) (start stop step : option Z) : py (list A) :=
  let! (s, st, len) <- slice_compute (Z.of_nat (length a)) start stop step;
  lift (darray_copy a (to_size s) (to_size st) (Z.to_nat len)).

(** * The header of .pkd files *)

(** Characters as bytes. *)
Definition chars (s : string) : list Z := map (fun c => Z.of_nat (nat_of_ascii c)) (list_ascii_of_string s).

(** PY/core.hpp:24-37: string_traits. *)
Definition metric_string (m : metric_t) : list Z :=
  match m with
  | MetricL1 => chars "L1"
  | MetricL2Squared => chars "L2Squared"
  | MetricLPInf => chars "LPInf"
  end.

(** Equality of byte strings. *)
Fixpoint bytes_eqb (a b : list Z) : bool :=
  match a, b with
  | [], [] => true
  | x :: a', y :: b' => (x =? y)%Z && bytes_eqb a' b'
  | _, _ => false
  end.

(** PY/kd_tree.hpp:588-599: metric_from_string. *)
Definition metric_from_string (s : list Z) : py metric_t :=
  if bytes_eqb s (metric_string MetricL1) then ret MetricL1
  else if bytes_eqb s (metric_string MetricL2Squared) then ret MetricL2Squared
  else if bytes_eqb s (metric_string MetricLPInf) then ret MetricLPInf
  else throw ExnRuntimeError.

Section Header.
Variable little : bool.

(** PY/kd_tree.hpp:549-554: signature and version. *)
Definition pkd_signature : list Z := [137; 80; 75; 68]%Z.
Definition version_codec : codec nat := uint_codec little 4 (2 ^ 32 - 1).

(** PY/kd_tree.hpp:579-585: pkd_header::write. *)
Definition header_write (m : metric_t) : list Z :=
  pkd_signature ++ c_enc version_codec 1
  ++ c_enc (size_codec little) (length (metric_string m)) ++ metric_string m.

(** PT/internal/stream_wrapper.hpp:52-57: read a string.  When the stream ends
    early, the characters not read are zero.  [Ok (inl _)]: the size exceeds
    max_size() and resize throws std::length_error. *)
Definition read_string (s : stream) : py (list Z * stream) :=
  let! (b, s1) <- lift (read_bytes 8 s);
  let! size <- lift (c_dec (size_codec little) b);
  let! _ <- throw_if (2 ^ 63 - 1 <? Z.of_nat size)%Z ExnRuntimeError;
  match s1 with
  | None => ret (repeat 0%Z size, None)
  | Some r =>
      if size <=? length r then ret (firstn size r, Some (skipn size r))
      else ret (r ++ repeat 0%Z (size - length r), None)
  end.

(** PY/kd_tree.hpp:557-577: pkd_header::read. *)
Definition header_read (s : stream) : py (metric_t * stream) :=
  let! (sg, s1) <- lift (read_bytes 4 s);
  let! _ <- throw_if (negb (bytes_eqb sg pkd_signature)) ExnRuntimeError;
  let! (vb, s2) <- lift (read_bytes 4 s1);
  let! v <- lift (c_dec version_codec vb);
  let! _ <- throw_if (negb (v =? 1)) ExnRuntimeError;
  let! (str, s3) <- read_string s2;
  let! m <- metric_from_string str;
  ret (m, s3).

Section Files.
Context {T : Type} {SC : Scalar T} (tc : codec T).

(** PY/kd_tree.hpp:608-614: save_kd_tree: the bytes of the file. *)
Definition py_save (pads : nat -> nat -> Z) (t : py_tree T) : list Z :=
  header_write (pt_metric t) ++ kd_tree_save little it_int tc pads (pt_tree t).

(** PY/kd_tree.hpp:602-606, 458-459, 114-115: load_kd_tree.  Trailing bytes are ignored. *)
Definition py_load (pts : ndarray T) (file : list Z) : py (py_tree T) :=
  let! (m, s) <- header_read (Some file);
  let! _ <- throw_if (negb (is_scalar_dtype (nd_dtype pts))) ExnInvalidArgument;
  let! inner <- lift (inner_stride pts);
  let! map <- make_map (dim_of inner) pts;
  let! (data, _) <- lift (load_data little it_int tc (m_cat (metric_impl m)) s);
  ret (PyTree (KdTree (pm_space map) (metric_impl m) data) m (dim_of inner) (pm_row_major map) (nd_dtype pts)).
End Files.
End Header.
