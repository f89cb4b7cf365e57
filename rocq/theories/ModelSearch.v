(** Model of the search visitors, the tree searches and the query interface.

    Citations are relative to /repo.  [PT] abbreviates src/pico_tree/pico_tree. *)
From Coq Require Import List ZArith Bool Arith.
From Verif Require Import Base ModelBox ModelBuild.
Import ListNotations.

(** PT/core.hpp:23-46: neighbor. *)
Record neighbor (T : Type) : Type := Neighbor { n_index : nat; n_distance : T }.
Arguments Neighbor {T} _ _.
Arguments n_index {T} _.
Arguments n_distance {T} _.

(** The interface of a search visitor (PT/internal/kd_tree_search.hpp:58,99;
    examples/kd_tree/kd_tree_custom_search_visitor.cpp:7-44): operator()(index,
    distance) updates the visitor's state, max() reads it. *)
Record visitor (T V : Type) : Type := Visitor {
  v_visit : nat -> T -> V -> V;
  v_max : V -> T
}.
Arguments Visitor {T V} _ _.
Arguments v_visit {T V} _.
Arguments v_max {T V} _.

Section Model.
Context {T : Type} {S : Scalar T}.
Local Open Scope scalar_scope.

(** PT/core.hpp:49-54: operator<. *)
Definition neighbor_lt (a b : neighbor T) : bool := n_distance a <? n_distance b.

(** PT/internal/search_visitor.hpp:24-38: the loop of insert_sorted.  [p] is
    the position of iterator [end] after std::advance(end, -1). *)
Fixpoint insert_sorted_loop (p : nat) (l : list (neighbor T)) (item : neighbor T)
  : list (neighbor T) :=
  match p with
  | O => set_nth l 0 item
  | Datatypes.S p' =>
      let prev := nth p' l item in
      if neighbor_lt item prev
      then insert_sorted_loop p' (set_nth l p prev) item
      else set_nth l p item
  end.
Definition insert_sorted (l : list (neighbor T)) (end_ : nat) (item : neighbor T)
  : list (neighbor T) :=
  insert_sorted_loop (end_ - 1)%nat l item.

(** PT/internal/search_visitor.hpp:41-65: search_nn.  The state is the
    caller's neighbor. *)
Definition visitor_nn : visitor T (neighbor T) :=
  Visitor
    (fun idx dst nn => if dst <? n_distance nn then Neighbor idx dst else nn)
    (fun nn => n_distance nn).
(** Constructor, lines 49-51. *)
Definition visitor_nn_init (nn : neighbor T) : neighbor T :=
  Neighbor (n_index nn) s_max.

(** PT/internal/search_visitor.hpp:82-123: search_knn.  The state is the
    caller's range and the position of active_end_. *)
Definition knn_state : Type := (list (neighbor T) * nat)%type.
Definition knn_max (st : knn_state) : T :=
  n_distance (last (fst st) (Neighbor 0 s_max)).
Definition visitor_knn : visitor T knn_state :=
  Visitor
    (fun idx dst st =>
       if dst <? knn_max st then
         let active := if (snd st <? length (fst st))%nat then (snd st + 1)%nat else snd st in
         (insert_sorted (fst st) active (Neighbor idx dst), active)
       else st)
    knn_max.
(** Constructor, lines 98-103: std::prev(end_)->distance = max().  Undefined on
    an empty range. *)
Definition visitor_knn_init (range : list (neighbor T)) : res knn_state :=
  match range with
  | [] => Ub UbIndex
  | _ :: _ =>
      let k := length range in
      let old := last range (Neighbor 0 s_max) in
      Ok (set_nth range (k - 1)%nat (Neighbor (n_index old) s_max), 0%nat)
  end.

(** PT/internal/search_visitor.hpp:126-156: search_radius. *)
Definition visitor_radius (radius : T) : visitor T (list (neighbor T)) :=
  Visitor
    (fun idx dst n => if dst <? radius then n ++ [Neighbor idx dst] else n)
    (fun _ => radius).

(** PT/internal/search_visitor.hpp:164-191: search_approximate_nn. *)
Definition visitor_approximate_nn (e : T) : visitor T (neighbor T) :=
  let e_inv := s_one / e in
  Visitor
    (fun idx dst nn =>
       let sdst := dst * e_inv in
       if sdst <? n_distance nn then Neighbor idx sdst else nn)
    (fun nn => n_distance nn).

(** PT/internal/search_visitor.hpp:196-247: search_approximate_knn. *)
Definition visitor_approximate_knn (e : T) : visitor T knn_state :=
  let e_inv := s_one / e in
  Visitor
    (fun idx dst st =>
       let sdst := dst * e_inv in
       if sdst <? knn_max st then
         let active := if (snd st <? length (fst st))%nat then (snd st + 1)%nat else snd st in
         (insert_sorted (fst st) active (Neighbor idx sdst), active)
       else st)
    knn_max.

(** PT/internal/search_visitor.hpp:253-288: search_approximate_radius. *)
Definition visitor_approximate_radius (e radius : T) : visitor T (list (neighbor T)) :=
  let e_inv := s_one / e in
  let radius_ := radius * e_inv in
  Visitor
    (fun idx dst n =>
       let sdst := dst * e_inv in
       if sdst <? radius_ then n ++ [Neighbor idx sdst] else n)
    (fun _ => radius_).

(** examples/kd_tree/kd_tree_custom_search_visitor.cpp:10-44: search_nn_counter,
    a user-defined visitor. *)
Definition visitor_nn_counter : visitor T (neighbor T * nat) :=
  Visitor
    (fun idx dst st =>
       (if dst <? n_distance (fst st) then Neighbor idx dst else fst st,
        (snd st + 1)%nat))
    (fun st => n_distance (fst st)).

Section Nearest.
Context {V : Type}.
Variables (m : metric T) (vis : visitor T V) (sp : space T) (indices : list nat) (q : list T).

(** PT/internal/kd_tree_search.hpp:57-59 (and 155-157): the leaf loop. *)
Fixpoint visit_range (l : list nat) (st : V) : res V :=
  match l with
  | [] => Ok st
  | i :: r =>
      do _ <- guard (in_space sp i) UbIndex;
      visit_range r (v_visit vis i (m_dist m q (sp_at sp i)) st)
  end.

(** PT/internal/kd_tree_search.hpp:52-105: search_nearest_euclidean.  The state
    is node_box_offset_ and the visitor. *)
Fixpoint search_nearest_euclidean (n : node (branch_single T)) (node_box_distance : T)
    (st : list T * V) : res (list T * V) :=
  match n with
  | Leaf b e =>
      do is_ <- slice indices b e;
      do v' <- visit_range is_ (snd st);
      Ok (fst st, v')
  | Branch br nl nr =>
      let split_dim := bs_split_dim br in
      do v <- at_ q split_dim;
      let go_left := s_zero <? (bs_left_max br + bs_right_min br - v - v) in
      let new_offset :=
        if go_left then m_app m (bs_right_min br - v) else m_app m (bs_left_max br - v) in
      do st1 <- search_nearest_euclidean (if go_left then nl else nr) node_box_distance st;
      do old_offset <- at_ (fst st1) split_dim;
      let node_box_distance' := node_box_distance - old_offset + new_offset in
      if node_box_distance' <=? v_max vis (snd st1) then
        do st2 <- search_nearest_euclidean (if go_left then nr else nl) node_box_distance'
                    (set_nth (fst st1) split_dim new_offset, snd st1);
        Ok (set_nth (fst st2) split_dim old_offset, snd st2)
      else Ok st1
  end.

(** PT/internal/kd_tree_search.hpp:150-203: search_nearest_topological. *)
Fixpoint search_nearest_topological (n : node (branch_double T)) (node_box_distance : T)
    (st : list T * V) : res (list T * V) :=
  match n with
  | Leaf b e =>
      do is_ <- slice indices b e;
      do v' <- visit_range is_ (snd st);
      Ok (fst st, v')
  | Branch br nl nr =>
      let split_dim := bd_split_dim br in
      do v <- at_ q split_dim;
      do d1 <- box_distance m (bd_left_min br) (bd_left_max br) v split_dim;
      do d2 <- box_distance m (bd_right_min br) (bd_right_max br) v split_dim;
      let go_left := d1 <? d2 in
      let new_offset := if go_left then d2 else d1 in
      do st1 <- search_nearest_topological (if go_left then nl else nr) node_box_distance st;
      do old_offset <- at_ (fst st1) split_dim;
      let node_box_distance' := node_box_distance - old_offset + new_offset in
      if node_box_distance' <=? v_max vis (snd st1) then
        do st2 <- search_nearest_topological (if go_left then nr else nl) node_box_distance'
                    (set_nth (fst st1) split_dim new_offset, snd st1);
        Ok (set_nth (fst st2) split_dim old_offset, snd st2)
      else Ok st1
  end.

End Nearest.

(** PT/kd_tree.hpp:382-408 with PT/internal/kd_tree_search.hpp:46-49, 144-147:
    dispatch on the space category; offsets and distance start at zero. *)
Definition search_nearest_root {V} (m : metric T) (c : category) (vis : visitor T V)
    (sp : space T) (indices : list nat) (q : list T)
    (root : node (branch_data c T)) (v0 : V) : res V :=
  let offsets := tab (sp_sdim sp) (fun _ => s_zero) in
  match c return node (branch_data c T) -> res V with
  | Euclidean => fun root =>
      do st <- search_nearest_euclidean m vis sp indices q root s_zero (offsets, v0);
      Ok (snd st)
  | Topological => fun root =>
      do st <- search_nearest_topological m vis sp indices q root s_zero (offsets, v0);
      Ok (snd st)
  end root.

(** PT/kd_tree.hpp:410-416: a kd_tree owns the space, the metric and the data.
    The data's node type is fixed by the metric's space category (30-35). *)
Record kd_tree : Type := KdTree {
  kt_space : space T;
  kt_metric : metric T;
  kt_data : kd_tree_data (m_cat kt_metric) T
}.

(** PT/kd_tree.hpp:76-88: the constructor.  [alg]: the standard library;
    [fuel]: see [create_node]. *)
Definition kd_tree_make (alg : std_algos) (it : index_type) (m : metric T) (fuel : nat)
    (sp : space T) (stop : stop_condition) (bnds : start_bounds T) (ru : rule) : res kd_tree :=
  do data <- build (m_cat m) alg it fuel sp stop bnds ru;
  Ok (KdTree sp m data).

(** PT/kd_tree.hpp:106-120: search_nearest.  The number of coordinates of the
    query must equal that of the space (static_assert 113-116 when both are
    known at compile time, unchecked otherwise). *)
Definition search_nearest {V} (t : kd_tree) (vis : visitor T V) (x : list T) (v0 : V) : res V :=
  do _ <- guard (length x =? sp_sdim (kt_space t))%nat UbDim;
  search_nearest_root (kt_metric t) (m_cat (kt_metric t)) vis (kt_space t)
    (kd_indices (kt_data t)) x (kd_root (kt_data t)) v0.

(** PT/kd_tree.hpp:125-129: search_nn(x, nn). *)
Definition search_nn (t : kd_tree) (x : list T) (nn : neighbor T) : res (neighbor T) :=
  search_nearest t visitor_nn x (visitor_nn_init nn).

(** PT/kd_tree.hpp:154-159: search_nn(x, e, nn). *)
Definition search_nn_approx (t : kd_tree) (x : list T) (e : T) (nn : neighbor T)
  : res (neighbor T) :=
  search_nearest t (visitor_approximate_nn e) x (visitor_nn_init nn).

(** PT/kd_tree.hpp:168-181: search_knn(x, begin, end); [range] is the content of
    [begin, end), the result its content afterwards. *)
Definition search_knn_range (t : kd_tree) (x : list T) (range : list (neighbor T))
  : res (list (neighbor T)) :=
  do st0 <- visitor_knn_init range;
  do st <- search_nearest t visitor_knn x st0;
  Ok (fst st).

(** std::vector::resize: truncates or appends value-initialised elements. *)
Definition vector_resize (l : list (neighbor T)) (n : nat) : list (neighbor T) :=
  firstn n l ++ repeat (Neighbor 0 s_zero) (n - length l)%nat.

(** PT/kd_tree.hpp:188-195: search_knn(x, k, knn). *)
Definition search_knn (t : kd_tree) (x : list T) (k : nat) (knn : list (neighbor T))
  : res (list (neighbor T)) :=
  search_knn_range t x (vector_resize knn (Nat.min k (sp_size (kt_space t)))).

(** PT/kd_tree.hpp:204-218: search_knn(x, e, begin, end). *)
Definition search_knn_range_approx (t : kd_tree) (x : list T) (e : T)
    (range : list (neighbor T)) : res (list (neighbor T)) :=
  do st0 <- visitor_knn_init range;
  do st <- search_nearest t (visitor_approximate_knn e) x st0;
  Ok (fst st).

(** PT/kd_tree.hpp:227-237: search_knn(x, k, e, knn). *)
Definition search_knn_approx (t : kd_tree) (x : list T) (k : nat) (e : T)
    (knn : list (neighbor T)) : res (list (neighbor T)) :=
  search_knn_range_approx t x e (vector_resize knn (Nat.min k (sp_size (kt_space t)))).

(** PT/kd_tree.hpp:256-268: search_radius(x, radius, n, sort).  The output
    vector is cleared first (search_visitor.hpp:136), so its previous content is
    not an input. *)
Definition search_radius (alg : std_algos) (t : kd_tree) (x : list T) (radius : T)
    (sort : bool) : res (list (neighbor T)) :=
  do n <- search_nearest t (visitor_radius radius) x [];
  Ok (if sort then std_sort alg _ neighbor_lt n else n).

(** PT/kd_tree.hpp:277-290: search_radius(x, radius, e, n, sort). *)
Definition search_radius_approx (alg : std_algos) (t : kd_tree) (x : list T) (radius e : T)
    (sort : bool) : res (list (neighbor T)) :=
  do n <- search_nearest t (visitor_approximate_radius e radius) x [];
  Ok (if sort then std_sort alg _ neighbor_lt n else n).

Section BoxSearch.
Variables (m : metric T) (sp : space T) (indices : list nat) (query : box T).

(** PT/internal/kd_tree_search.hpp:248-251, 287, 298, 309-311: the query box is
    a box_map (Euclidean) or a metric_box_map (topological). *)
Definition query_contains (c : category) (p : list T) : res bool :=
  match c with
  | Euclidean => Ok (box_contains query p)
  | Topological => mbox_contains m query p
  end.
Definition query_contains_box (c : category) (x : box T) : res bool :=
  match c with
  | Euclidean => Ok (box_contains_box query x)
  | Topological => mbox_contains_box m query x
  end.

(** Accessors of the branch data used by search_box. *)
Definition br_split_dim (c : category) : branch_data c T -> nat :=
  match c return branch_data c T -> nat with
  | Euclidean => @bs_split_dim T
  | Topological => @bd_split_dim T
  end.
Definition br_left_max (c : category) : branch_data c T -> T :=
  match c return branch_data c T -> T with
  | Euclidean => @bs_left_max T
  | Topological => @bd_left_max T
  end.
Definition br_right_min (c : category) : branch_data c T -> T :=
  match c return branch_data c T -> T with
  | Euclidean => @bs_right_min T
  | Topological => @bd_right_min T
  end.

(** PT/internal/kd_tree_search.hpp:315-323: intersects_left. *)
Definition intersects_left (c : category) : branch_data c T -> bool :=
  match c return branch_data c T -> bool with
  | Euclidean => fun br => get (box_min query) (bs_split_dim br) <=? bs_left_max br
  | Topological => fun br =>
      (get (box_min query) (bd_split_dim br) <=? bd_left_max br)
      || (bd_left_min br <=? get (box_max query) (bd_split_dim br))
  end.

(** PT/internal/kd_tree_search.hpp:325-333: intersects_right. *)
Definition intersects_right (c : category) : branch_data c T -> bool :=
  match c return branch_data c T -> bool with
  | Euclidean => fun br => bs_right_min br <=? get (box_max query) (bs_split_dim br)
  | Topological => fun br =>
      (bd_right_min br <=? get (box_max query) (bd_split_dim br))
      || (get (box_min query) (bd_split_dim br) <=? bd_right_max br)
  end.

(** PT/internal/kd_tree_search.hpp:358-372: report_left, report_right. *)
Fixpoint report_left {B} (n : node B) : nat :=
  match n with Leaf b _ => b | Branch _ l _ => report_left l end.
Fixpoint report_right {B} (n : node B) : nat :=
  match n with Leaf _ e => e | Branch _ _ r => report_right r end.

(** PT/internal/kd_tree_search.hpp:336-356: report_node.  std::copy of a range
    whose end precedes its begin is undefined. *)
Definition report_node {B} (n : node B) (idxs : list nat) : res (list nat) :=
  let '(b, e) :=
    match n with
    | Leaf b e => (b, e)
    | Branch _ l r => (report_left l, report_right r)
    end in
  do _ <- guard (b <=? e)%nat UbIndex;
  do is_ <- slice indices b e;
  Ok (idxs ++ is_).

(** PT/internal/kd_tree_search.hpp:272-278: the leaf loop. *)
Fixpoint collect_range (c : category) (l : list nat) (idxs : list nat) : res (list nat) :=
  match l with
  | [] => Ok idxs
  | i :: r =>
      do _ <- guard (in_space sp i) UbIndex;
      do b <- query_contains c (sp_at sp i);
      collect_range c r (if b then idxs ++ [i] else idxs)
  end.

(** PT/internal/kd_tree_search.hpp:270-306: operator().  The state is the
    running box box_ and the output vector. *)
Fixpoint search_box_node (c : category) (n : node (branch_data c T)) (st : box T * list nat)
  : res (box T * list nat) :=
  match n with
  | Leaf b e =>
      do is_ <- slice indices b e;
      do idxs <- collect_range c is_ (snd st);
      Ok (fst st, idxs)
  | Branch br nl nr =>
      let split_dim := br_split_dim c br in
      do old_max <- at_ (box_max (fst st)) split_dim;
      let box1 := box_set_max (fst st) split_dim (br_left_max c br) in
      do in_left <- query_contains_box c box1;
      do st1 <-
        (if in_left then do idxs <- report_node nl (snd st); Ok (box1, idxs)
         else if intersects_left c br then search_box_node c nl (box1, snd st)
         else Ok (box1, snd st));
      let box2 := box_set_max (fst st1) split_dim old_max in
      do old_min <- at_ (box_min box2) split_dim;
      let box3 := box_set_min box2 split_dim (br_right_min c br) in
      do in_right <- query_contains_box c box3;
      do st2 <-
        (if in_right then do idxs <- report_node nr (snd st1); Ok (box3, idxs)
         else if intersects_right c br then search_box_node c nr (box3, snd st1)
         else Ok (box3, snd st1));
      Ok (box_set_min (fst st2) split_dim old_min, snd st2)
  end.

End BoxSearch.

(** PT/kd_tree.hpp:295-318: search_box(min, max, idxs).  The output vector is
    cleared first.  box_map takes its size from the space (line 316), so min and
    max must have that many coordinates. *)
Definition search_box (t : kd_tree) (mn mx : list T) : res (list nat) :=
  do _ <- guard ((length mn =? sp_sdim (kt_space t))
                 && (length mx =? sp_sdim (kt_space t)))%nat UbDim;
  do st <- search_box_node (kt_metric t) (kt_space t) (kd_indices (kt_data t)) (Box mn mx)
             (m_cat (kt_metric t)) (kd_root (kt_data t)) (kd_root_box (kt_data t), []);
  Ok (snd st).

End Model.

Arguments kd_tree T : clear implicits.
Arguments KdTree {T} _ _ _.
