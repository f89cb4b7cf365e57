(** Model of the kd_forest of the examples.

    Citations are relative to /repo.  [PT] abbreviates src/pico_tree/pico_tree,
    [PU] examples/pico_understory/pico_understory. *)
From Coq Require Import List ZArith Bool Arith.
From Verif Require Import Base ModelBox ModelBuild ModelSearch ModelCover.
Import ListNotations.

(** PU/internal/kd_tree_priority_search.hpp:31: queue_pair_type. *)
Definition queue_pair (T : Type) : Type := (T * node (branch_double T))%type.

(** std::priority_queue<..., std::greater<queue_pair_type>>
    (PU/internal/kd_tree_priority_search.hpp:131-139): its content is a list in
    arbitrary order, emplace adds an element, top() followed by pop() splits off
    one.  The choice is the library's (pairs with equal distances are ordered by
    node address); [queue_laws] in SpecForest.v says that it is smallest.
    [None] for an empty queue only. *)
Record pqueue (T : Type) : Type := PQueue {
  pq_pop : list (queue_pair T) -> option (queue_pair T * list (queue_pair T))
}.
Arguments PQueue {T} _.
Arguments pq_pop {T} _ _.

(** PU/internal/rkd_tree_hh_data.hpp:38-76: a rotation, the rotated points and a
    tree of these.  The node type is topological (PU/kd_forest.hpp:18-21). *)
Record rkd_tree (T : Type) : Type := RkdTree {
  rk_rotation : list T;
  rk_space : space T;
  rk_tree : kd_tree_data Topological T
}.
Arguments RkdTree {T} _ _ _.
Arguments rk_rotation {T} _.
Arguments rk_space {T} _.
Arguments rk_tree {T} _.

Section Model.
Context {T : Type} {S : Scalar T}.
Local Open Scope scalar_scope.

(** PT/internal/point.hpp:65-71: normalize. *)
Definition normalize (cm : cmath T) (v : list T) : list T :=
  let l2 := fold_left (fun l2 e => l2 + e * e) v s_zero in
  let l2' := s_one / c_sqrt cm l2 in
  map (fun e => e * l2') v.

(** PU/internal/rkd_tree_hh_data.hpp:13-28, 47-50: random_normal and
    random_rotation.  [gauss i] is the i-th draw of the distribution. *)
Definition random_normal (cm : cmath T) (gauss : nat -> T) (dim : nat) : list T :=
  normalize cm (tab dim gauss).

(** PU/internal/rkd_tree_hh_data.hpp:79-92: rotate_point(rotation, x, y), the
    value of y afterwards.  x needs as many coordinates as the rotation. *)
Definition rotate_point (rotation x : list T) : res (list T) :=
  do _ <- guard (length rotation <=? length x)%nat UbDim;
  let dot := fold_left (fun d i => d + get rotation i * get x i) (seq 0 (length rotation)) s_zero in
  let dot' := dot * s_two in
  Ok (tab (length rotation) (fun i => get x i - dot' * get rotation i)).

(** PU/internal/rkd_tree_hh_data.hpp:52-65: rotate_space.  Simplification: the
    matrix_space (PU/internal/matrix_space.hpp) that holds the points
    consecutively is a space. *)
Fixpoint rotate_points (rotation : list T) (pts : list (list T)) : res (list (list T)) :=
  match pts with
  | [] => Ok []
  | x :: r =>
      do y <- rotate_point rotation x;
      do ys <- rotate_points rotation r;
      Ok (y :: ys)
  end.
Definition rotate_space (rotation : list T) (sp : space T) : res (space T) :=
  do ys <- rotate_points rotation (sp_pts sp);
  Ok (Space (sp_sdim sp) ys).

(** PU/internal/rkd_tree_builder.hpp:34-41: the body of the loop. *)
Definition build_rkd_one (alg : std_algos) (it : index_type) (cm : cmath T) (fuel : nat)
    (sp : space T) (stop : stop_condition) (bnds : start_bounds T) (ru : rule)
    (gauss : nat -> T) : res (rkd_tree T) :=
  let r := random_normal cm gauss (sp_sdim sp) in
  do s <- rotate_space r sp;
  do t <- build Topological alg it fuel s stop bnds ru;
  Ok (RkdTree r s t).

(** PU/internal/rkd_tree_builder.hpp:22-43: build_rkd_tree; [gauss i] are the
    random numbers of tree i. *)
Fixpoint build_rkd_loop (alg : std_algos) (it : index_type) (cm : cmath T) (fuel : nat)
    (sp : space T) (stop : stop_condition) (bnds : start_bounds T) (ru : rule)
    (gauss : nat -> nat -> T) (i n : nat) : res (list (rkd_tree T)) :=
  match n with
  | O => Ok []
  | Datatypes.S n' =>
      do t <- build_rkd_one alg it cm fuel sp stop bnds ru (gauss i);
      do ts <- build_rkd_loop alg it cm fuel sp stop bnds ru gauss (i + 1)%nat n';
      Ok (t :: ts)
  end.
Definition build_rkd_tree (alg : std_algos) (it : index_type) (cm : cmath T) (fuel : nat)
    (sp : space T) (stop : stop_condition) (bnds : start_bounds T) (ru : rule)
    (gauss : nat -> nat -> T) (forest_size : nat) : res (list (rkd_tree T)) :=
  do _ <- guard (0 <? forest_size)%nat UbAssert;
  build_rkd_loop alg it cm fuel sp stop bnds ru gauss 0 forest_size.

(** PU/kd_forest.hpp:120-125: the members. *)
Record kd_forest : Type := KdForest {
  kf_space : space T;
  kf_metric : metric T;
  kf_data : list (rkd_tree T)
}.

(** PU/kd_forest.hpp:42-51: the constructor.  The metric must be Euclidean: there
    is no search_nearest for other space categories (84-118). *)
Definition kd_forest_make (alg : std_algos) (it : index_type) (cm : cmath T) (m : metric T)
    (fuel : nat) (gauss : nat -> nat -> T) (sp : space T) (leaf_size : Z) (forest_size : nat)
  : res kd_forest :=
  do data <- build_rkd_tree alg it cm fuel sp (max_leaf_size leaf_size) bounds_from_space
               sliding_midpoint_max_side gauss forest_size;
  Ok (KdForest sp m data).

Section Priority.
Context {V : Type}.
Variables (pq : pqueue T) (m : metric T) (vis : visitor T V) (sp : space T) (indices : list nat) (q : list T).

(** PU/internal/kd_tree_priority_search.hpp:69-125: search_nearest.  The state is
    queue_ and the visitor. *)
Fixpoint priority_descend (n : node (branch_double T)) (node_box_distance : T)
    (st : list (queue_pair T) * V) : res (list (queue_pair T) * V) :=
  match n with
  | Leaf b e =>
      do is_ <- slice indices b e;
      do v' <- visit_range m vis sp q is_ (snd st);
      Ok (fst st, v')
  | Branch br nl nr =>
      do v <- at_ q (bd_split_dim br);
      let go_left := s_zero <? (bd_left_max br + bd_right_min br - v - v) in
      let old_offset :=
        if go_left
        then if bd_left_min br <? v then s_zero else m_app m (bd_left_min br - v)
        else if v <? bd_right_max br then s_zero else m_app m (bd_right_max br - v) in
      let new_offset :=
        if go_left then m_app m (bd_right_min br - v) else m_app m (bd_left_max br - v) in
      do st1 <- priority_descend (if go_left then nl else nr) node_box_distance st;
      let node_box_distance' := node_box_distance - old_offset + new_offset in
      if node_box_distance' <? v_max vis (snd st1)
      then Ok ((node_box_distance', if go_left then nr else nl) :: fst st1, snd st1)
      else Ok st1
  end.

(** PU/internal/kd_tree_priority_search.hpp:49-66: operator().  [budget] is
    max_leaves_visited_ - leaves_visited; each iteration that does not break
    increments leaves_visited. *)
Fixpoint priority_loop (budget : nat) (st : list (queue_pair T) * V) : res V :=
  match pq_pop pq (fst st) with
  | None => Ok (snd st)
  | Some ((node_box_distance, n), queue) =>
      match budget with
      | O => Ok (snd st)
      | Datatypes.S budget' =>
          if v_max vis (snd st) <? node_box_distance then Ok (snd st)
          else
            do st' <- priority_descend n node_box_distance (queue, snd st);
            priority_loop budget' st'
      end
  end.
Definition priority_search (max_leaves_visited : nat) (root : node (branch_double T)) (v0 : V) : res V :=
  priority_loop max_leaves_visited ([(s_zero, root)], v0).

End Priority.

(** PU/kd_forest.hpp:88-118: the loop of search_nearest, with
    PU/internal/rkd_tree_hh_data.hpp:67-73 (rotate_point(x)). *)
Fixpoint forest_loop {V} (pq : pqueue T) (m : metric T) (vis : visitor T V) (max_leaves_visited : nat)
    (x : list T) (trees : list (rkd_tree T)) (st : V) : res V :=
  match trees with
  | [] => Ok st
  | t :: ts =>
      do p <- rotate_point (rk_rotation t) x;
      do st' <- priority_search pq m vis (rk_space t) (kd_indices (rk_tree t)) p max_leaves_visited
                  (kd_root (rk_tree t)) st;
      forest_loop pq m vis max_leaves_visited x ts st'
  end.
Definition forest_search_nearest {V} (pq : pqueue T) (f : kd_forest) (vis : visitor T V) (x : list T)
    (max_leaves_visited : nat) (v0 : V) : res V :=
  forest_loop pq (kf_metric f) vis max_leaves_visited x (kf_data f) v0.

(** PU/kd_forest.hpp:77-82: search_nn. *)
Definition forest_search_nn (pq : pqueue T) (f : kd_forest) (x : list T) (max_leaves_visited : nat)
    (nn : neighbor T) : res (neighbor T) :=
  forest_search_nearest pq f visitor_nn x max_leaves_visited (visitor_nn_init nn).

End Model.

Arguments kd_forest T : clear implicits.
Arguments KdForest {T} _ _ _.
