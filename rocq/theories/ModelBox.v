(** Model of boxes, one-dimensional segments, distances and metrics.

    Citations are relative to /repo.  [PT] abbreviates src/pico_tree/pico_tree. *)
From Coq Require Import List ZArith Bool Arith.
From Verif Require Import Base.
Import ListNotations.

(** PT/internal/box.hpp:159-175,196-233: a box is a min and a max coordinate
    vector.  Simplification: the static- and run-time-dimension storages (and
    the pointer based box_map, 236-290) are one record; the size is the length
    of the vectors. *)
Record box (T : Type) : Type := Box { box_min : list T; box_max : list T }.
Arguments Box {T} _ _.
Arguments box_min {T} _.
Arguments box_max {T} _.

(** PT/distance.hpp:5-7: one_space_r1 and one_space_s1. *)
Inductive one_space : Type := R1 | S1.

(** PT/metric.hpp:65,71: topological_space_tag / euclidean_space_tag. *)
Inductive category : Type := Euclidean | Topological.

Section Model.
Context {T : Type} {S : Scalar T}.
Local Open Scope scalar_scope.

(** PT/internal/box.hpp:140, 229: size(). *)
Definition box_size (b : box T) : nat := length (box_min b).

(** PT/internal/box.hpp:31-40: contains(point); edges are inside. *)
Definition box_contains (b : box T) (x : list T) : bool :=
  forallb (fun i => negb ((get x i <? get (box_min b) i) || (get (box_max b) i <? get x i)))
          (seq 0 (box_size b)).

(** PT/internal/box.hpp:45-47: contains(box). *)
Definition box_contains_box (b x : box T) : bool :=
  box_contains b (box_min x) && box_contains b (box_max x).

(** PT/internal/box.hpp:54-66: fill_inverse_max / make_inverse_max. *)
Definition box_inverse_max (size : nat) : box T :=
  Box (tab size (fun _ => s_max)) (tab size (fun _ => s_lowest)).

(** PT/internal/box.hpp:71-82: max_side.  The index is an uninitialised output
    parameter ([None]) until a side larger than lowest() is seen. *)
Definition box_max_side (b : box T) : option nat * T :=
  fold_left
    (fun '(p_max_index, p_max_value) i =>
       let delta := get (box_max b) i - get (box_min b) i in
       if p_max_value <? delta then (Some i, delta) else (p_max_index, p_max_value))
    (seq 0 (box_size b))
    (None, s_lowest).

(** PT/internal/box.hpp:86-95: fit(point). *)
Definition box_fit (b : box T) (x : list T) : box T :=
  Box (tab (box_size b)
           (fun i => if get x i <? get (box_min b) i then get x i else get (box_min b) i))
      (tab (box_size b)
           (fun i => if get (box_max b) i <? get x i then get x i else get (box_max b) i)).

(** PT/internal/box.hpp:100-110: fit(box). *)
Definition box_fit_box (b x : box T) : box T :=
  Box (tab (box_size b)
           (fun i => if get (box_min x) i <? get (box_min b) i
                     then get (box_min x) i else get (box_min b) i))
      (tab (box_size b)
           (fun i => if get (box_max b) i <? get (box_max x) i
                     then get (box_max x) i else get (box_max b) i)).

(** PT/internal/box.hpp:221, 227: assignment through min(i) and max(i). *)
Definition box_set_min (b : box T) (i : nat) (v : T) : box T :=
  Box (set_nth (box_min b) i v) (box_max b).
Definition box_set_max (b : box T) (i : nat) (v : T) : box T :=
  Box (box_min b) (set_nth (box_max b) i v).

(** PT/distance.hpp:19-21: r1_distance. *)
Definition r1_distance (x y : T) : T := s_abs (x - y).

(** PT/distance.hpp:26-29: s1_distance. *)
Definition s1_distance (x y : T) : T :=
  let d := s_abs (x - y) in std_min d (s_one - d).

(** PT/distance.hpp:33-35: squared. *)
Definition squared (x : T) : T := x * x.

(** PT/distance.hpp:39-41: squared_r1_distance. *)
Definition squared_r1_distance (x y : T) : T := squared (x - y).

(** PT/distance.hpp:46-48: squared_s1_distance. *)
Definition squared_s1_distance (x y : T) : T := squared (s1_distance x y).

(** PT/internal/segment.hpp:27-30: the constructor of segment_r1 asserts
    min <= max. *)
Definition segment_r1_ok (mn mx : T) : bool := mn <=? mx.

(** PT/internal/segment.hpp:32: segment_r1::contains(x). *)
Definition segment_r1_contains (mn mx x : T) : bool := (mn <=? x) && (x <=? mx).

(** PT/internal/segment.hpp:34-36: segment_r1::contains(segment_r1). *)
Definition segment_r1_contains_seg (mn mx xmn xmx : T) : bool :=
  (mn <=? xmn) && (xmx <=? mx).

(** PT/internal/segment.hpp:38-46: segment_r1::distance. *)
Definition segment_r1_distance (mn mx x : T) : T :=
  if x <? mn then mn - x
  else if mx <? x then x - mx
  else s_zero.

(** PT/internal/segment.hpp:101: segment_s1::linear. *)
Definition segment_s1_linear (mn mx : T) : bool := mn <=? mx.

(** PT/internal/segment.hpp:61-67: segment_s1::contains(x). *)
Definition segment_s1_contains (mn mx x : T) : bool :=
  if segment_s1_linear mn mx then (mn <=? x) && (x <=? mx)
  else (mn <=? x) || (x <=? mx).

(** PT/internal/segment.hpp:69-75: segment_s1::contains(segment_r1). *)
Definition segment_s1_contains_seg (mn mx xmn xmx : T) : bool :=
  if segment_s1_linear mn mx then (mn <=? xmn) && (xmx <=? mx)
  else (mn <=? xmn) || (xmx <=? mx).

(** PT/internal/segment.hpp:77-83: distance_min_max. *)
Definition segment_s1_distance_min_max (mn mx x : T) : T :=
  if (x <? mn) || (mx <? x)
  then std_min (s1_distance x mn) (s1_distance x mx)
  else s_zero.

(** PT/internal/segment.hpp:85-91: distance_max_min. *)
Definition segment_s1_distance_max_min (mn mx x : T) : T :=
  if (x <? mx) || (mn <? x)
  then s_zero
  else std_min (s1_distance x mn) (s1_distance x mx).

(** PT/internal/segment.hpp:93-99: segment_s1::distance. *)
Definition segment_s1_distance (mn mx x : T) : T :=
  if segment_s1_linear mn mx
  then segment_s1_distance_min_max mn mx x
  else segment_s1_distance_max_min mn mx x.

(** PT/metric.hpp:36-51: internal::sum.  The pairs are those visited by the
    loop over [begin1, end1) and begin2. *)
Definition sum_op (op : T -> T -> T) (x y : list T) : T :=
  fold_left (fun d '(a, b) => d + op a b) (combine x y) s_zero.

(** A metric as the searches see it: operator()(begin1, end1, begin2),
    operator()(x), apply_dim_space(dim, .) and space_category.
    PT/metric.hpp:78-257; user-defined metrics have the same interface
    (examples/kd_tree/kd_tree_custom_metric.cpp:17-83).  [m_dim_space] is only
    consulted for topological metrics. *)
Record metric : Type := Metric {
  m_cat : category;
  m_dist : list T -> list T -> T;
  m_app : T -> T;
  m_dim_space : nat -> one_space
}.

(** PT/metric.hpp:78-98. *)
Definition metric_l1 : metric :=
  Metric Euclidean (sum_op r1_distance) s_abs (fun _ => R1).

(** PT/metric.hpp:103-124. *)
Definition metric_l2_squared : metric :=
  Metric Euclidean (sum_op squared_r1_distance) squared (fun _ => R1).

(** PT/metric.hpp:126-155. *)
Definition metric_lpinf : metric :=
  Metric Euclidean
    (fun x y => fold_left (fun d '(a, b) => std_max d (r1_distance a b)) (combine x y) s_zero)
    s_abs (fun _ => R1).

(** PT/metric.hpp:157-186. *)
Definition metric_lninf : metric :=
  Metric Euclidean
    (fun x y => fold_left (fun d '(a, b) => std_min d (r1_distance a b)) (combine x y) s_max)
    s_abs (fun _ => R1).

(** PT/metric.hpp:197-220.  Only the first coordinate is read. *)
Definition metric_so2 : metric :=
  Metric Topological (fun x y => s1_distance (get x 0) (get y 0)) s_abs (fun _ => S1).

(** PT/metric.hpp:228-257.  Exactly three coordinates are read. *)
Definition metric_se2_squared : metric :=
  Metric Topological
    (fun x y =>
       sum_op squared_r1_distance (firstn 2 x) (firstn 2 y)
       + squared_s1_distance (get x 2) (get y 2))
    squared
    (fun dim => if (dim <? 2)%nat then R1 else S1).

(** examples/kd_tree/kd_tree_custom_metric.cpp:48-82: the squared metric of the
    flat torus, a user-defined topological metric.  (The example is for two
    dimensions; the code works for any.) *)
Definition metric_t2_squared : metric :=
  Metric Topological (sum_op squared_s1_distance) squared (fun _ => S1).

(** std::pow(x, p) of examples/kd_tree/kd_tree_custom_metric.cpp:41 for a whole
    number p.  Simplification: repeated multiplication; the C library's rounding
    is not modelled. *)
Fixpoint s_pow (x : T) (p : nat) : T :=
  match p with
  | O => s_one
  | Datatypes.S p' => s_pow x p' * x
  end.

(** examples/kd_tree/kd_tree_custom_metric.cpp:17-44: metric_lp_p<P>, a
    user-defined Euclidean metric. *)
Definition metric_lp_p (p : nat) : metric :=
  Metric Euclidean (sum_op (fun a b => s_pow (s_abs (a - b)) p))
    (fun x => s_pow (s_abs x) p) (fun _ => R1).

(** PT/internal/box.hpp:353-372: metric_box_map::contains(min, max, v, dim) for
    a coordinate v; a segment_r1 asserts min <= max. *)
Definition mbox_dim_contains (m : metric) (d : nat) (mn mx v : T) : res bool :=
  match m_dim_space m d with
  | R1 => do _ <- guard (segment_r1_ok mn mx) UbAssert; Ok (segment_r1_contains mn mx v)
  | S1 => Ok (segment_s1_contains mn mx v)
  end.

(** PT/internal/box.hpp:353-372 with a segment argument. *)
Definition mbox_dim_contains_seg (m : metric) (d : nat) (mn mx xmn xmx : T) : res bool :=
  match m_dim_space m d with
  | R1 => do _ <- guard (segment_r1_ok mn mx) UbAssert;
          Ok (segment_r1_contains_seg mn mx xmn xmx)
  | S1 => Ok (segment_s1_contains_seg mn mx xmn xmx)
  end.

(** PT/internal/box.hpp:317-324: metric_box_map::contains(point), with the
    early return of the loop. *)
Fixpoint mbox_contains_from (m : metric) (q : box T) (p : list T) (i n : nat) : res bool :=
  match n with
  | O => Ok true
  | Datatypes.S n' =>
      do c <- mbox_dim_contains m i (get (box_min q) i) (get (box_max q) i) (get p i);
      if c then mbox_contains_from m q p (i + 1)%nat n' else Ok false
  end.
Definition mbox_contains (m : metric) (q : box T) (p : list T) : res bool :=
  mbox_contains_from m q p 0 (box_size q).

(** PT/internal/box.hpp:329-341: metric_box_map::contains(box).  Building
    segment_r1(x.min(i), x.max(i)) asserts x.min(i) <= x.max(i). *)
Fixpoint mbox_contains_box_from (m : metric) (q x : box T) (i n : nat) : res bool :=
  match n with
  | O => Ok true
  | Datatypes.S n' =>
      do _ <- guard (segment_r1_ok (get (box_min x) i) (get (box_max x) i)) UbAssert;
      do c <- mbox_dim_contains_seg m i (get (box_min q) i) (get (box_max q) i)
                (get (box_min x) i) (get (box_max x) i);
      if c then mbox_contains_box_from m q x (i + 1)%nat n' else Ok false
  end.
Definition mbox_contains_box (m : metric) (q x : box T) : res bool :=
  mbox_contains_box_from m q x 0 (box_size q).

(** PT/internal/kd_tree_search.hpp:205-221: box_distance. *)
Definition box_distance (m : metric) (mn mx v : T) (dim : nat) : res T :=
  match m_dim_space m dim with
  | R1 => do _ <- guard (segment_r1_ok mn mx) UbAssert;
          Ok (m_app m (segment_r1_distance mn mx v))
  | S1 => Ok (m_app m (segment_s1_distance mn mx v))
  end.

End Model.

Arguments metric T : clear implicits.
Arguments Metric {T} _ _ _ _.
