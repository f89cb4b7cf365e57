(** Specifications: what the scalar type and the standard library are assumed
    to satisfy, and what queries and trees are supposed to mean.  Nothing in
    this file refers to the algorithms of the model; only to its data types
    (points, neighbours) and to the bare metric names. *)
From Coq Require Import List ZArith QArith Qabs Bool Arith Permutation Sorted.
From Verif Require Import Base ModelBox ModelBuild ModelSearch.
Import ListNotations.

(** * Scalars *)

(** [<] and [<=] are a total preorder on the values satisfying [ok] (for
    floating point: not NaN). *)
Record ord_laws {T} (S : Scalar T) (ok : T -> Prop) : Prop := {
  ol_lt : forall x y, ok x -> ok y -> s_ltb x y = negb (s_leb y x);
  ol_total : forall x y, ok x -> ok y -> s_leb x y = true \/ s_leb y x = true;
  ol_trans : forall x y z, ok x -> ok y -> ok z ->
    s_leb x y = true -> s_leb y z = true -> s_leb x z = true;
  ol_max : ok s_max;
  ol_lowest : ok s_lowest
}.

(** The midpoint of two [ok] values, as computed by the midpoint rule, is [ok]. *)
Definition mid_ok {T} (S : Scalar T) (ok : T -> Prop) : Prop :=
  forall x y, ok x -> ok y -> ok (s_add (s_mul (s_sub y x) s_half) x).

(** The operations are exact: they agree with rational arithmetic through
    [val].  [s_half] need not be one half (it is 0 for integers). *)
Record exact_laws {T} (S : Scalar T) (val : T -> Q) : Prop := {
  el_lt : forall x y, s_ltb x y = true <-> (val x < val y)%Q;
  el_le : forall x y, s_leb x y = true <-> (val x <= val y)%Q;
  el_zero : (val s_zero == 0)%Q;
  el_one : (val s_one == 1)%Q;
  el_add : forall x y, (val (s_add x y) == val x + val y)%Q;
  el_sub : forall x y, (val (s_sub x y) == val x - val y)%Q;
  el_mul : forall x y, (val (s_mul x y) == val x * val y)%Q;
  el_abs : forall x, (val (s_abs x) == Qabs (val x))%Q;
  el_half : (0 <= val s_half <= 1)%Q;
  el_div_two_pos : forall x, (0 <= val x -> 0 <= val (s_div x s_two) <= val x)%Q;
  el_div_two_neg : forall x, (val x <= 0 -> val x <= val (s_div x s_two) <= 0)%Q;
  el_max : (1 <= val s_max)%Q;
  el_lowest : (val s_lowest < 0)%Q
}.

(** Division is exact as well. *)
Record field_laws {T} (S : Scalar T) (val : T -> Q) : Prop := {
  fl_div : forall x y, (~ val y == 0 -> val (s_div x y) == val x / val y)%Q;
  fl_half : (val s_half == 1 # 2)%Q;
  fl_two : (val s_two == 2)%Q
}.

(** A value between numeric_limits::lowest() and max(). *)
Definition representable {T} {S : Scalar T} (val : T -> Q) (x : T) : Prop :=
  (val s_lowest <= val x <= val s_max)%Q.

(** A value so small that differences of two such values do not overflow. *)
Definition no_overflow {T} {S : Scalar T} (val : T -> Q) (x : T) : Prop :=
  (representable val x /\ 2 * Qabs (val x) < - val s_lowest)%Q.

(** * The C++ standard library *)

(** Strict weak ordering of the elements of a list ([alg.sorting]). *)
Record strict_weak {A} (lt : A -> A -> bool) (l : list A) : Prop := {
  sw_irrefl : forall x, In x l -> lt x x = false;
  sw_trans : forall x y z, In x l -> In y l -> In z l ->
    lt x y = true -> lt y z = true -> lt x z = true;
  sw_incomp : forall x y z, In x l -> In y l -> In z l ->
    lt x y = false -> lt y z = false -> lt x z = false
}.

(** Post-conditions of std::partition, std::nth_element and std::sort. *)
Record std_laws (alg : std_algos) : Prop := {
  sl_partition_perm : forall p l,
    Permutation (fst (std_partition alg p l) ++ snd (std_partition alg p l)) l;
  sl_partition_left : forall p l x, In x (fst (std_partition alg p l)) -> p x = true;
  sl_partition_right : forall p l x, In x (snd (std_partition alg p l)) -> p x = false;
  sl_nth_perm : forall lt n l, strict_weak lt l -> (n <= length l)%nat ->
    Permutation (std_nth_element alg lt n l) l;
  sl_nth_before : forall lt n l x y, strict_weak lt l -> (n < length l)%nat ->
    In x (firstn n (std_nth_element alg lt n l)) ->
    In y (skipn n (std_nth_element alg lt n l)) -> lt y x = false;
  sl_nth_after : forall lt n l x y, strict_weak lt l -> (n < length l)%nat ->
    nth_error (std_nth_element alg lt n l) n = Some x ->
    In y (skipn n (std_nth_element alg lt n l)) -> lt y x = false;
  sl_sort_perm : forall A lt (l : list A), strict_weak lt l ->
    Permutation (std_sort alg A lt l) l;
  sl_sort_sorted : forall A lt (l : list A), strict_weak lt l ->
    StronglySorted (fun x y => lt y x = false) (std_sort alg A lt l)
}.

(** * Spaces *)

(** All points have [sdim] >= 1 coordinates. *)
Definition wf_space {T} (sp : space T) : Prop :=
  (1 <= sp_sdim sp)%nat /\ Forall (fun p => length p = sp_sdim sp) (sp_pts sp).

(** All coordinates of all points satisfy [P]. *)
Definition all_coords {T} (P : T -> Prop) (sp : space T) : Prop :=
  Forall (Forall P) (sp_pts sp).

(** User supplied bounds have [sdim] coordinates satisfying [P]. *)
Definition bounds_coords {T} (P : T -> Prop) (sp : space T) (b : start_bounds T) : Prop :=
  match b with
  | bounds_from_space => True
  | bounds_user mn mx =>
      length mn = sp_sdim sp /\ length mx = sp_sdim sp /\ Forall P mn /\ Forall P mx
  end.

(** User supplied bounds enclose all points.  As in the constructor, the box is
    spanned by the two given corners in any order. *)
Definition bounds_enclose {T} {S : Scalar T} (sp : space T) (b : start_bounds T) : Prop :=
  match b with
  | bounds_from_space => True
  | bounds_user mn mx =>
      forall p d, In p (sp_pts sp) -> (d < sp_sdim sp)%nat ->
        (s_leb (nth d mn s_zero) (nth d p s_zero) = true
         \/ s_leb (nth d mx s_zero) (nth d p s_zero) = true)
        /\ (s_leb (nth d p s_zero) (nth d mn s_zero) = true
            \/ s_leb (nth d p s_zero) (nth d mx s_zero) = true)
  end.

(** The stop value survives the conversion to the index type. *)
Definition stop_fits (it : index_type) (stop : stop_condition) : Prop :=
  match stop with
  | max_leaf_size v => (0 < v <= it_max it)%Z
  | max_leaf_depth v => (0 <= v <= it_max it)%Z
  end.

(** Sane index types. *)
Definition index_type_ok (it : index_type) : Prop := (8 <= it_bits it)%Z.

(** * Distances, on coordinates interpreted as rational numbers *)

Local Open Scope Q_scope.

Definition abs_diff (x y : Q) : Q := Qabs (x - y).
Definition sq_diff (x y : Q) : Q := (x - y) * (x - y).

(** Distance on a circle of circumference one. *)
Definition arc (x y : Q) : Q :=
  if Qlt_le_dec (1 - Qabs (x - y)) (Qabs (x - y)) then 1 - Qabs (x - y) else Qabs (x - y).

Fixpoint sum_dist (f : Q -> Q -> Q) (x y : list Q) : Q :=
  match x, y with
  | a :: x', b :: y' => f a b + sum_dist f x' y'
  | _, _ => 0
  end.

(** The metrics for which nearest searches are claimed to be exact. *)
Inductive exact_metric : Type := L1 | L2Squared | SO2 | SE2Squared.

Definition metric_of {T} {S : Scalar T} (em : exact_metric) : metric T :=
  match em with
  | L1 => metric_l1
  | L2Squared => metric_l2_squared
  | SO2 => metric_so2
  | SE2Squared => metric_se2_squared
  end.

Definition dist_of (em : exact_metric) (x y : list Q) : Q :=
  match em with
  | L1 => sum_dist abs_diff x y
  | L2Squared => sum_dist sq_diff x y
  | SO2 => arc (nth 0 x 0) (nth 0 y 0)
  | SE2Squared =>
      sq_diff (nth 0 x 0) (nth 0 y 0) + sq_diff (nth 1 x 0) (nth 1 y 0)
      + arc (nth 2 x 0) (nth 2 y 0) * arc (nth 2 x 0) (nth 2 y 0)
  end.

(** Documented restrictions on points and queries (PT/metric.hpp:188-192,
    222-224): SO2 is one-dimensional in [0,1], SE2 three-dimensional with the
    third coordinate in [0,1]. *)
Definition valid_for (em : exact_metric) (x : list Q) : Prop :=
  match em with
  | L1 | L2Squared => True
  | SO2 => length x = 1%nat /\ 0 <= nth 0 x 0 <= 1
  | SE2Squared => length x = 3%nat /\ 0 <= nth 2 x 0 <= 1
  end.

(** User supplied bounds respect the same restrictions. *)
Definition valid_bounds {T} (val : T -> Q) (em : exact_metric) (b : start_bounds T) : Prop :=
  match b with
  | bounds_from_space => True
  | bounds_user mn mx => valid_for em (map val mn) /\ valid_for em (map val mx)
  end.

(** Distance of point [i] of the space to [q]. *)
Definition dist_to {T} (val : T -> Q) (em : exact_metric) (sp : space T) (q : list T) (i : nat) : Q :=
  dist_of em (map val q) (map val (nth i (sp_pts sp) [])).

(** A tree over [sp] with start bounds [bnds] may be queried at [q]: everything
    has the right number of coordinates, coordinates are within the range of the
    scalar type and obey the restrictions of the metric. *)
Record usable {T} {S : Scalar T} (val : T -> Q) (em : exact_metric) (sp : space T)
    (bnds : start_bounds T) (q : list T) : Prop := {
  us_space : wf_space sp;
  us_range : all_coords (representable val) sp;
  us_valid : Forall (fun p => valid_for em (map val p)) (sp_pts sp);
  us_bounds : valid_bounds val em bnds;
  us_query : length q = sp_sdim sp;
  us_query_valid : valid_for em (map val q)
}.

(** All distances to [q] are below numeric_limits::max(). *)
Definition distances_fit {T} {S : Scalar T} (val : T -> Q) (em : exact_metric) (sp : space T)
    (q : list T) : Prop :=
  forall i, (i < length (sp_pts sp))%nat -> dist_to val em sp q i < val s_max.

(** * Answers to queries *)

(** The numbers of points. *)
Definition npts {T} (sp : space T) : nat := length (sp_pts sp).

(** [i] is a nearest point. *)
Definition is_nearest (n : nat) (D : nat -> Q) (i : nat) : Prop :=
  (i < n)%nat /\ forall j, (j < n)%nat -> D i <= D j.

(** A neighbour as a pair of an index and a rational distance. *)
Definition answers {T} (val : T -> Q) (l : list (neighbor T)) : list (nat * Q) :=
  map (fun x => (n_index x, val (n_distance x))) l.

(** The [k] nearest of [n] points, in order. *)
Record knn_answer (n k : nat) (D : nat -> Q) (ans : list (nat * Q)) : Prop := {
  ka_length : length ans = Nat.min k n;
  ka_nodup : NoDup (map fst ans);
  ka_genuine : forall i d, In (i, d) ans -> (i < n)%nat /\ d == D i;
  ka_sorted : StronglySorted Qle (map snd ans);
  ka_nearest : forall i d j, In (i, d) ans -> (j < n)%nat -> ~ In j (map fst ans) -> d <= D j
}.

(** Exactly the points satisfying [P], each once, with their distance. *)
Record filter_answer (n : nat) (P : nat -> Prop) (D : nat -> Q) (ans : list (nat * Q)) : Prop := {
  fa_nodup : NoDup (map fst ans);
  fa_genuine : forall i d, In (i, d) ans -> (i < n)%nat /\ P i /\ d == D i;
  fa_complete : forall i, (i < n)%nat -> P i -> In i (map fst ans)
}.

(** [ds] is the sorted list of all distances. *)
Definition sorted_distances (n : nat) (D : nat -> Q) (ds : list Q) : Prop :=
  Permutation ds (map D (seq 0 n)) /\ StronglySorted Qle ds.

(** Membership of a point in an orthogonal box, closed on all sides. *)
Definition inside {T} {S : Scalar T} (mn mx p : list T) : Prop :=
  forall d, (d < length mn)%nat ->
    s_leb (nth d mn s_zero) (nth d p s_zero) = true
    /\ s_leb (nth d p s_zero) (nth d mx s_zero) = true.

(** Membership in a box whose circular dimensions [S1] may wrap around: there,
    [min > max] denotes the arc from [min] upwards through 1 and 0 to [max]. *)
Definition inside_topological {T} {S : Scalar T} (dim_space : nat -> one_space)
    (mn mx p : list T) : Prop :=
  forall d, (d < length mn)%nat ->
    let a := nth d mn s_zero in
    let b := nth d mx s_zero in
    let x := nth d p s_zero in
    match dim_space d with
    | R1 => s_leb a x = true /\ s_leb x b = true
    | S1 => (s_leb a b = true -> s_leb a x = true /\ s_leb x b = true)
            /\ (s_leb a b = false -> s_leb a x = true \/ s_leb x b = true)
    end.

(** The midpoint of [x <= y] lies between them. *)
Definition mid_between {T} (S : Scalar T) (ok : T -> Prop) : Prop :=
  forall x y, ok x -> ok y -> s_leb x y = true ->
    s_leb x (s_add (s_mul (s_sub y x) s_half) x) = true
    /\ s_leb (s_add (s_mul (s_sub y x) s_half) x) y = true.

(** All [ok] values lie between numeric_limits::lowest() and max(). *)
Definition ok_finite {T} (S : Scalar T) (ok : T -> Prop) : Prop :=
  forall x, ok x -> s_leb s_lowest x = true /\ s_leb x s_max = true.

(** Exactly the indices satisfying [P], each once. *)
Definition index_answer (n : nat) (P : nat -> Prop) (ans : list nat) : Prop :=
  NoDup ans /\ forall i, In i ans <-> ((i < n)%nat /\ P i).

(** * Trees *)

Local Open Scope nat_scope.

(** The index ranges of the leaves, left to right. *)
Fixpoint leaf_intervals {B} (n : node B) : list (nat * nat) :=
  match n with
  | Leaf b e => [(b, e)]
  | Branch _ l r => leaf_intervals l ++ leaf_intervals r
  end.

(** Consecutive ranges that start at [a] and end at [b]. *)
Inductive consecutive : nat -> list (nat * nat) -> nat -> Prop :=
| consecutive_nil a : consecutive a [] a
| consecutive_cons a b c l : a <= b -> consecutive b l c -> consecutive a ((a, b) :: l) c.

(** The length of the longest path from the root to a leaf. *)
Fixpoint node_height {B} (n : node B) : nat :=
  match n with
  | Leaf _ _ => 0
  | Branch _ l r => 1 + Nat.max (node_height l) (node_height r)
  end.

(** For each leaf, left to right: its depth below a root at depth [h] and its
    number of points. *)
Fixpoint leaf_levels {B} (h : nat) (n : node B) : list (nat * nat) :=
  match n with
  | Leaf b e => [(h, e - b)]
  | Branch _ l r => leaf_levels (h + 1) l ++ leaf_levels (h + 1) r
  end.

(** Number of points below a node. *)
Fixpoint node_points {B} (n : node B) : nat :=
  match n with
  | Leaf b e => e - b
  | Branch _ l r => node_points l + node_points r
  end.

(** [P] holds of the children of every branch. *)
Fixpoint every_branch {B} (P : B -> node B -> node B -> Prop) (n : node B) : Prop :=
  match n with
  | Leaf _ _ => True
  | Branch d l r => P d l r /\ every_branch P l /\ every_branch P r
  end.

(** Values for which the cell arithmetic of the splitters stays in range:
    differences exceed lowest(), and splitting a cell gives such a value again. *)
Record range_laws {T} (S : Scalar T) (good : T -> Prop) : Prop := {
  rl_side : forall x y, good x -> good y -> s_ltb s_lowest (s_sub y x) = true;
  rl_half : forall x y, good x -> good y -> good (s_add (s_mul (s_sub y x) s_half) x);
  rl_two : forall x y, good x -> good y -> good (s_add (s_div (s_sub y x) s_two) x);
  rl_max : forall x, good x -> s_ltb x s_max = true \/ good s_max;
  rl_lowest : forall x, good x -> s_ltb s_lowest x = true \/ good s_lowest
}.

(** * Metrics that are sums of per-coordinate terms *)

Local Open Scope Q_scope.

Fixpoint sumN (n : nat) (f : nat -> Q) : Q :=
  match n with O => 0 | S n' => sumN n' f + f n' end.

(** The sum of the terms [t k x_k y_k] over all [n] coordinates. *)
Definition term_sum {T} {S : Scalar T} (val : T -> Q) (n : nat) (t : nat -> Q -> Q -> Q)
    (x y : list T) : Q :=
  sumN n (fun k => t k (val (nth k x s_zero)) (val (nth k y s_zero))).

(** What a user-defined Euclidean metric has to satisfy: metric(a - v) is the
    term of coordinates [v] and [a], and terms grow away from [v]. *)
Record euclidean_terms {T} {S : Scalar T} (val : T -> Q) (m : metric T) (t : nat -> Q -> Q -> Q) : Prop := {
  et_cat : m_cat m = Euclidean;
  et_nonneg : forall k x y, 0 <= t k x y;
  et_app : forall k a v, val (m_app m (s_sub a v)) == t k (val v) (val a);
  et_mono : forall k v a p, (v <= a <= p \/ p <= a <= v) -> t k v a <= t k v p
}.

(** What a user-defined topological metric has to satisfy: in every dimension,
    metric(distance to a segment) does not exceed the term of any point of the
    segment; for circular dimensions within [0,1]. *)
Record topological_terms {T} {S : Scalar T} (val : T -> Q) (m : metric T) (t : nat -> Q -> Q -> Q) : Prop := {
  tt_cat : m_cat m = Topological;
  tt_nonneg : forall k x y, 0 <= t k x y;
  tt_r1 : forall k mn mx v p, m_dim_space m k = R1 ->
    val mn <= p <= val mx -> val (m_app m (segment_r1_distance mn mx v)) <= t k (val v) p;
  tt_s1 : forall k mn mx v p, m_dim_space m k = S1 ->
    0 <= val mn -> val mx <= 1 -> 0 <= val v <= 1 ->
    val mn <= p <= val mx -> val (m_app m (segment_s1_distance mn mx v)) <= t k (val v) p
}.

(** Coordinates of circular dimensions lie in [0,1]. *)
Definition circular_ok {T} {S : Scalar T} (val : T -> Q) (m : metric T) (n : nat) (x : list T) : Prop :=
  forall k, (k < n)%nat -> m_dim_space m k = S1 -> 0 <= val (nth k x s_zero) <= 1.

(** Either kind, with the corresponding restriction on points [x]. *)
Definition terms_for {T} {S : Scalar T} (val : T -> Q) (m : metric T) (t : nat -> Q -> Q -> Q) : Prop :=
  euclidean_terms val m t \/ topological_terms val m t.
Definition point_ok {T} {S : Scalar T} (val : T -> Q) (m : metric T) (n : nat) (x : list T) : Prop :=
  m_cat m = Topological -> circular_ok val m n x.
Definition bounds_ok {T} {S : Scalar T} (val : T -> Q) (m : metric T) (n : nat) (b : start_bounds T) : Prop :=
  match b with
  | bounds_from_space => True
  | bounds_user mn mx => point_ok val m n mn /\ point_ok val m n mx
  end.

(** The maximum norm of the difference. *)
Fixpoint linf_dist (x y : list Q) : Q :=
  match x, y with
  | a :: x', b :: y' =>
      if Qlt_le_dec (abs_diff a b) (linf_dist x' y') then linf_dist x' y' else abs_diff a b
  | _, _ => 0
  end.

(** * Segments *)

(** [p] is an element of the arc that starts at [a] and runs upwards to [b],
    through 1 and 0 when [b < a]. *)
Definition on_arc (a b p : Q) : Prop :=
  0 <= p <= 1 /\ ((a <= b /\ a <= p <= b) \/ (b < a /\ (a <= p \/ p <= b))).

(** Two coordinates denote the same point of the circle: equal, or 0 and 1. *)
Definition circle_eq (x y : Q) : Prop := x == y \/ (x == 0 /\ y == 1) \/ (x == 1 /\ y == 0).

(** Two points are the same for a metric. *)
Definition same_point (em : exact_metric) (x y : list Q) : Prop :=
  match em with
  | L1 | L2Squared => Forall2 Qeq x y
  | SO2 => circle_eq (nth 0 x 0) (nth 0 y 0)
  | SE2Squared => nth 0 x 0 == nth 0 y 0 /\ nth 1 x 0 == nth 1 y 0
      /\ circle_eq (nth 2 x 0) (nth 2 y 0)
  end.

(** * User-defined metrics *)

(** A tree over [sp] with metric [m] may be queried at [q], and [m] is the sum
    of the per-coordinate terms [t] on the points in question. *)
Record metric_fits {T} {S : Scalar T} (val : T -> Q) (m : metric T) (t : nat -> Q -> Q -> Q)
    (sp : space T) (bnds : start_bounds T) (q : list T) : Prop := {
  mf_space : wf_space sp;
  mf_range : all_coords (representable val) sp;
  mf_terms : terms_for val m t;
  mf_points : Forall (point_ok val m (sp_sdim sp)) (sp_pts sp);
  mf_bounds : bounds_ok val m (sp_sdim sp) bnds;
  mf_query : length q = sp_sdim sp;
  mf_query_ok : point_ok val m (sp_sdim sp) q;
  mf_sum : forall p, In p (sp_pts sp) -> val (m_dist m q p) == term_sum val (sp_sdim sp) t q p
}.

(** Distance of point [i], by the metric itself. *)
Definition metric_to {T} (val : T -> Q) (m : metric T) (sp : space T) (q : list T) (i : nat) : Q :=
  val (m_dist m q (nth i (sp_pts sp) [])).

(** Whole powers. *)
Fixpoint qpow (x : Q) (n : nat) : Q := match n with O => 1 | S n' => qpow x n' * x end.

(** The LP^P metric. *)
Definition lp_term (p : nat) (x y : Q) : Q := qpow (abs_diff x y) p.

(** * Cells *)

Local Open Scope nat_scope.

(** The indices stored below a node. *)
Definition node_indices {B} (indices : list nat) (nd : node B) : list nat :=
  flat_map (fun '(b, e) => firstn (e - b) (skipn b indices)) (leaf_intervals nd).

(** A cell is given by its lower and upper ends per dimension. *)
Definition upd (f : nat -> Q) (d : nat) (v : Q) : nat -> Q := fun k => if k =? d then v else f k.

(** [d] is a dimension of largest extent, and the first one. *)
Definition longest_side (n : nat) (lo hi : nat -> Q) (d : nat) : Prop :=
  d < n
  /\ (forall k, k < n -> (hi k - lo k <= hi d - lo d)%Q)
  /\ (forall k, k < d -> (hi k - lo k < hi d - lo d)%Q).

(** How a rule distributes the points [l ++ r] with coordinates [x] over the two
    sides of a cell with centre [mid], cutting at [v]. *)
Definition rule_cut (ru : rule) (mid : Q) (x : nat -> Q) (l r : list nat) (v : Q) : Prop :=
  match ru with
  | midpoint_max_side =>
      (v == mid)%Q /\ (forall i, In i l -> (x i < v)%Q) /\ (forall i, In i r -> (v <= x i)%Q)
  | median_max_side =>
      length l = (length l + length r) / 2
      /\ (exists i, In i r /\ (v == x i)%Q)
      /\ (forall i, In i l -> (x i <= v)%Q) /\ (forall i, In i r -> (v <= x i)%Q)
  | sliding_midpoint_max_side =>
      ((v == mid)%Q /\ l <> [] /\ r <> []
       /\ (forall i, In i l -> (x i < v)%Q) /\ (forall i, In i r -> (v <= x i)%Q))
      \/ ((forall i, In i (l ++ r) -> (mid <= x i)%Q) /\ length l = 1
          /\ (exists i, In i r /\ (v == x i)%Q)
          /\ (forall i, In i l -> (x i <= v)%Q) /\ (forall i, In i r -> (v <= x i)%Q))
      \/ ((forall i, In i (l ++ r) -> (x i < mid)%Q) /\ length r = 1
          /\ (exists i, In i r /\ (v == x i)%Q) /\ (forall i, In i l -> (x i <= v)%Q))
  end.

(** The tree below a node with the given cell: every branch cuts the longest
    side of its cell as prescribed by the rule.  [x i d] is coordinate [d] of
    point [i], [dim] the stored split dimension. *)
Fixpoint cell_tree {B} (dim : B -> nat) (ru : rule) (n : nat) (x : nat -> nat -> Q)
    (indices : list nat) (lo hi : nat -> Q) (nd : node B) : Prop :=
  match nd with
  | Leaf _ _ => True
  | Branch br l r =>
      let d := dim br in
      longest_side n lo hi d
      /\ exists v,
           rule_cut ru ((lo d + hi d) / 2) (fun i => x i d)
             (node_indices indices l) (node_indices indices r) v
           /\ cell_tree dim ru n x indices lo (upd hi d v) l
           /\ cell_tree dim ru n x indices (upd lo d v) hi r
  end.

(** The cells obtained by halving: [midpoint_cell nd lo hi nd' lo' hi'] says that
    [nd'] is a descendant of [nd] and that halving the cell of [nd] on the way
    to it gives the cell [lo'], [hi']. *)
Inductive midpoint_cell {B} (dim : B -> nat) :
  node B -> (nat -> Q) -> (nat -> Q) -> node B -> (nat -> Q) -> (nat -> Q) -> Prop :=
| mc_here nd lo hi : midpoint_cell dim nd lo hi nd lo hi
| mc_left br l r lo hi nd lo' hi' :
    midpoint_cell dim l lo (upd hi (dim br) ((lo (dim br) + hi (dim br)) / 2)) nd lo' hi' ->
    midpoint_cell dim (Branch br l r) lo hi nd lo' hi'
| mc_right br l r lo hi nd lo' hi' :
    midpoint_cell dim r (upd lo (dim br) ((lo (dim br) + hi (dim br)) / 2)) hi nd lo' hi' ->
    midpoint_cell dim (Branch br l r) lo hi nd lo' hi'.

(** [v] is the largest (smallest) value of [x] on [l], attained. *)
Definition is_max (x : nat -> Q) (l : list nat) (v : Q) : Prop :=
  (forall i, In i l -> (x i <= v)%Q) /\ exists i, In i l /\ (x i == v)%Q.
Definition is_min (x : nat -> Q) (l : list nat) (v : Q) : Prop :=
  (forall i, In i l -> (v <= x i)%Q) /\ exists i, In i l /\ (x i == v)%Q.

(** Coordinate [d] of point [i], as a rational. *)
Definition coord_val {T} {S : Scalar T} (val : T -> Q) (sp : space T) (i d : nat) : Q :=
  val (nth d (nth i (sp_pts sp) []) s_zero).

(** The lower and upper ends of a box. *)
Definition box_lo {T} {S : Scalar T} (val : T -> Q) (b : box T) (d : nat) : Q := val (nth d (box_min b) s_zero).
Definition box_hi {T} {S : Scalar T} (val : T -> Q) (b : box T) (d : nat) : Q := val (nth d (box_max b) s_zero).

(** Exactness of what a branch stores about the points [l], [r] of its sides. *)
Definition tight_branch {T} {S : Scalar T} (val : T -> Q) (sp : space T) (c : category)
    (br : branch_data c T) (l r : list nat) : Prop :=
  br_split_dim c br < sp_sdim sp
  /\ is_max (fun i => coord_val val sp i (br_split_dim c br)) l (val (br_left_max c br))
  /\ is_min (fun i => coord_val val sp i (br_split_dim c br)) r (val (br_right_min c br))
  /\ (match c return branch_data c T -> Prop with
      | Euclidean => fun _ => True
      | Topological => fun b =>
          is_min (fun i => coord_val val sp i (bd_split_dim b)) l (val (bd_left_min b))
          /\ is_max (fun i => coord_val val sp i (bd_split_dim b)) r (val (bd_right_max b))
      end br).

(** [P] at every branch, applied to the indices of the two sides. *)
Fixpoint every_branch_at {B} (P : B -> list nat -> list nat -> Prop) (indices : list nat) (nd : node B) : Prop :=
  match nd with
  | Leaf _ _ => True
  | Branch br l r => P br (node_indices indices l) (node_indices indices r)
      /\ every_branch_at P indices l /\ every_branch_at P indices r
  end.

(** Points of the circle: one coordinate in [0,1]. *)
Definition circle_points {T} (val : T -> Q) (sp : space T) : Prop :=
  sp_sdim sp = 1 /\ Forall (fun p => length p = 1 /\ Forall (fun c => (0 <= val c <= 1)%Q) p) (sp_pts sp).

(** Poses: two coordinates of the plane and an angle in [0,1]. *)
Definition pose {T} {S : Scalar T} (val : T -> Q) (p : list T) : Prop :=
  exists x y a, p = [x; y; a] /\ representable val x /\ representable val y /\ (0 <= val a <= 1)%Q.
Definition pose_dist (x y a x' y' a' : Q) : Q := (sq_diff x x' + sq_diff y y' + arc a a' * arc a a')%Q.
