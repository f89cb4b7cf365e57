(** Model of the cover tree of the examples.

    Citations are relative to /repo.  [PU] abbreviates
    examples/pico_understory/pico_understory.  The model is of the code with
    SIMPLIFIED_NEAREST_ANCESTOR_COVER_TREE defined, as PU/cover_tree.hpp:25 does. *)
From Coq Require Import List ZArith Bool Arith.
From Verif Require Import Base ModelBox ModelBuild ModelSearch.
Import ListNotations.

(** The functions of <cmath> that the code calls (PU/internal/cover_tree_base.hpp:17,23,32;
    PU/internal/cover_tree_builder.hpp:111,125; PU/metric.hpp:20): arbitrary
    functions here; theorems state what they need of them. *)
Record cmath (T : Type) : Type := CMath {
  c_pow : T -> T -> T;
  c_log : T -> T;
  c_ceil : T -> T;
  c_floor : T -> T;
  c_sqrt : T -> T
}.
Arguments CMath {T} _ _ _ _ _.
Arguments c_pow {T} _ _ _.
Arguments c_log {T} _ _.
Arguments c_ceil {T} _ _.
Arguments c_floor {T} _ _.
Arguments c_sqrt {T} _ _.

(** PU/internal/cover_tree_node.hpp:7-21.  Simplification: the tree of heap
    nodes with mutable fields is an inductive tree; functions that modify a node
    through a pointer return the modified node. *)
Inductive cover_node (T : Type) : Type :=
| CoverNode (level max_distance : T) (index : nat) (children : list (cover_node T)).
Arguments CoverNode {T} _ _ _ _.

Section Node.
Context {T : Type}.
(** PU/internal/cover_tree_node.hpp:16-20: the fields. *)
Definition cn_level (n : cover_node T) : T := let '(CoverNode l _ _ _) := n in l.
Definition cn_max_distance (n : cover_node T) : T := let '(CoverNode _ m _ _) := n in m.
Definition cn_index (n : cover_node T) : nat := let '(CoverNode _ _ i _) := n in i.
Definition cn_children (n : cover_node T) : list (cover_node T) := let '(CoverNode _ _ _ c) := n in c.
(** PU/internal/cover_tree_node.hpp:13: is_leaf. *)
Definition cn_is_leaf (n : cover_node T) : bool :=
  match cn_children n with [] => true | _ :: _ => false end.
(** node->level = ..., as in PU/internal/cover_tree_builder.hpp:72,79,106,111,227. *)
Definition cn_set_level (n : cover_node T) (l : T) : cover_node T :=
  let '(CoverNode _ m i c) := n in CoverNode l m i c.
(** node->children.clear(), PU/internal/cover_tree_builder.hpp:316. *)
Definition cn_clear (n : cover_node T) : cover_node T :=
  let '(CoverNode l m i _) := n in CoverNode l m i [].
(** parent->children.push_back(child), PU/internal/cover_tree_builder.hpp:73,80. *)
Definition cn_push (n c : cover_node T) : cover_node T :=
  let '(CoverNode l m i cs) := n in CoverNode l m i (cs ++ [c]).
End Node.

(** PU/internal/static_buffer.hpp:12-32: allocate() of a buffer that reserved
    [cap] elements and holds [used] of them.  One more than was reserved may
    move the elements: every pointer handed out before dangles. *)
Definition buffer_allocate (cap used : nat) : res nat :=
  if (used <? cap)%nat then Ok (used + 1)%nat else Ub UbDangling.

Section Model.
Context {T : Type} {S : Scalar T}.
Local Open Scope scalar_scope.

(** PU/metric.hpp:10-30: metric_l2. *)
Definition metric_l2 (cm : cmath T) : metric T :=
  Metric Euclidean (fun x y => c_sqrt cm (sum_op squared_r1_distance x y)) s_abs (fun _ => R1).

Section Build.
(** The C library, the standard library, the metric, the space and the leveling
    base. *)
Variables (cm : cmath T) (alg : std_algos) (m : metric T) (sp : space T) (base : T).

(** metric_(x, x + space_.sdim(), space_[node->index]), as in
    PU/internal/cover_tree_builder.hpp:121,174,179,274-275,309-310,343. *)
Definition cn_dist (x : list T) (n : cover_node T) : T := m_dist m x (sp_at sp (cn_index n)).

(** PU/internal/cover_tree_base.hpp:16-18, 22-24, 31-33. *)
Definition cover_distance (n : cover_node T) : T := c_pow cm base (cn_level n).
Definition child_distance (n : cover_node T) : T := c_pow cm base (cn_level n - s_one).
Definition base_level (dst : T) : T := c_log cm dst / c_log cm base.

(** PU/internal/cover_tree_builder.hpp:65-69: create_node.  A new element of the
    buffer is value-initialised: its level and max_distance are zero.  The index
    is checked here once; all later accesses space_[node->index] use it. *)
Definition cover_create_node (cap used idx : nat) : res (cover_node T * nat) :=
  do used' <- buffer_allocate cap used;
  do _ <- guard (in_space sp idx) UbIndex;
  Ok (CoverNode s_zero s_zero idx [], used').

(** PU/internal/cover_tree_builder.hpp:71-74: push_child. *)
Definition push_child (parent child : cover_node T) : cover_node T :=
  cn_push parent (cn_set_level child (cn_level parent - s_one)).

(** PU/internal/cover_tree_builder.hpp:76-82: node_to_parent. *)
Definition node_to_parent (parent child : cover_node T) : res (cover_node T) :=
  do _ <- guard (cn_is_leaf parent) UbAssert;
  Ok (cn_push (cn_set_level parent (cn_level child + s_one)) child).

(** PU/internal/cover_tree_builder.hpp:84-97: remove_leaf.  Returns the tree
    without the leaf, and the leaf.  children.back() of a leaf is undefined
    (and asserted not to happen). *)
Fixpoint remove_leaf (tree : cover_node T) : res (cover_node T * cover_node T) :=
  match tree with
  | CoverNode l md i cs =>
      match rev (map (fun c => (c, remove_leaf c)) cs) with
      | [] => Ub UbAssert
      | (back, r) :: _ =>
          if cn_is_leaf back then Ok (CoverNode l md i (removelast cs), back)
          else do (back', leaf) <- r; Ok (CoverNode l md i (removelast cs ++ [back']), leaf)
      end
  end.

(** PU/internal/cover_tree_builder.hpp:127-129: the loop that raises the root.
    [fuel]: the loop has no bound of its own. *)
Fixpoint raise_root (fuel : nat) (tree : cover_node T) (level : T) : res (cover_node T) :=
  match fuel with
  | O => OutOfFuel
  | Datatypes.S fuel' =>
      if cn_level tree <? level then
        do (tree', leaf) <- remove_leaf tree;
        do tree'' <- node_to_parent leaf tree';
        raise_root fuel' tree'' level
      else Ok tree
  end.

(** PU/internal/cover_tree_builder.hpp:173-185: the nearest of the children,
    the first one on ties. *)
Definition nearest_child (x : list T) (c : cover_node T) (cs : list (cover_node T)) : nat * T :=
  fold_left
    (fun '(min_i, min_d) i =>
       let d := cn_dist x (nth i (c :: cs) c) in
       if d <? min_d then (i, d) else (min_i, min_d))
    (seq 1 (length cs)) (0%nat, cn_dist x c).

(** PU/internal/cover_tree_builder.hpp:163-193: find_parent.  The returned
    pointer is the path from [tree] to the node. *)
Fixpoint find_parent (tree : cover_node T) (x : list T) : list nat :=
  match tree with
  | CoverNode l md i cs =>
      match cs with
      | [] => []
      | c :: cs' =>
          let '(min_i, min_d) := nearest_child x c cs' in
          if min_d <=? child_distance tree
          then min_i :: nth min_i (map (fun c => find_parent c x) cs) []
          else []
      end
  end.

(** Not code: apply a modification at the node a path leads to. *)
Fixpoint update_at (path : list nat) (f : cover_node T -> res (cover_node T)) (tree : cover_node T)
  : res (cover_node T) :=
  match path with
  | [] => f tree
  | k :: path' =>
      let '(CoverNode l md i cs) := tree in
      do c <- at_ cs k;
      do c' <- update_at path' f c;
      Ok (CoverNode l md i (set_nth cs k c'))
  end.

(** The vectors to_move and to_stay (PU/internal/cover_tree_builder.hpp:197-198). *)
Definition buffers : Type := (list (cover_node T) * list (cover_node T))%type.

(** PU/internal/cover_tree_builder.hpp:294-317: strip.  All children end up
    without children of their own; [descendant] is cleared by the caller's use of
    [cn_clear]. *)
Fixpoint strip (x_move x_stay : list T) (descendant : cover_node T) (b : buffers) : buffers :=
  match descendant with
  | CoverNode _ _ _ cs =>
      fold_left
        (fun b child =>
           let b1 := strip x_move x_stay child b in
           if cn_dist x_move child <? cn_dist x_stay child
           then (fst b1 ++ [cn_clear child], snd b1)
           else (fst b1, snd b1 ++ [cn_clear child]))
        cs b
  end.

(** PU/internal/cover_tree_builder.hpp:258-290: extract.  std::partition
    rearranges the children: positions 0, 1, ... of the vector are partitioned,
    which is the same. *)
Fixpoint extract (x_move x_stay : list T) (descendant : cover_node T) (b : buffers)
  : cover_node T * buffers :=
  match descendant with
  | CoverNode l md i cs =>
      let go := map (fun c => extract x_move x_stay c) cs in
      let '(stay, move) :=
        std_partition alg
          (fun k => cn_dist x_stay (nth k cs descendant) <? cn_dist x_move (nth k cs descendant))
          (seq 0 (length cs)) in
      let b1 :=
        fold_left
          (fun b k =>
             let c := nth k cs descendant in
             strip x_move x_stay c (fst b ++ [cn_clear c], snd b))
          (rev move) b in
      let '(cs', b2) :=
        fold_left
          (fun '(cs', b) k =>
             let '(c', b') := nth k go (fun b => (descendant, b)) b in
             (c' :: cs', b'))
          (rev stay) ([], b1) in
      (CoverNode l md i cs', b2)
  end.

(** for (...) tree = f(tree, element), with outcomes (plumbing). *)
Fixpoint fold_res {A B} (f : A -> B -> res A) (l : list B) (a : A) : res A :=
  match l with
  | [] => Ok a
  | b :: l' => do a' <- f a b; fold_res f l' a'
  end.

(** PU/internal/cover_tree_builder.hpp:195-233: rebalance (simplified variant).
    [insert_covered] is passed as an argument to break the mutual recursion. *)
Definition rebalance (insert_covered : cover_node T -> cover_node T -> res (cover_node T))
    (parent node : cover_node T) (x : list T) : res (cover_node T) :=
  let d := child_distance parent * s_two in
  do (cs', to_move) <-
    fold_res
      (fun '(cs', to_move) child =>
         if cn_dist x child <? d then
           let '(child1, (to_move', to_stay)) :=
             extract x (sp_at sp (cn_index child)) child (to_move, []) in
           do child2 <- fold_res insert_covered (rev to_stay) child1;
           Ok (cs' ++ [child2], to_move')
         else Ok (cs' ++ [child], to_move))
      (cn_children parent) ([], []);
  let node1 := cn_set_level node (cn_level parent - s_one) in
  do node2 <- fold_res insert_covered (rev to_move) node1;
  let '(CoverNode l md i _) := parent in
  Ok (push_child (CoverNode l md i cs') node2).

(** PU/internal/cover_tree_builder.hpp:148-161: insert_covered. *)
Fixpoint insert_covered (fuel : nat) (tree node : cover_node T) : res (cover_node T) :=
  match fuel with
  | O => OutOfFuel
  | Datatypes.S fuel' =>
      let x := sp_at sp (cn_index node) in
      update_at (find_parent tree x)
        (fun parent =>
           if cn_is_leaf parent then Ok (push_child parent node)
           else rebalance (insert_covered fuel') parent node x)
        tree
  end.

(** PU/internal/cover_tree_builder.hpp:119-144: insert. *)
Definition cover_insert (fuel : nat) (tree node : cover_node T) : res (cover_node T) :=
  let d := cn_dist (sp_at sp (cn_index node)) tree in
  let c := cover_distance tree in
  if c <? d then
    let level := c_floor cm (base_level (c + d)) in
    do tree' <- raise_root fuel tree level;
    node_to_parent node tree'
  else insert_covered fuel tree node.

(** PU/internal/cover_tree_builder.hpp:101-116: insert_first_two.  Returns the
    tree and the number of nodes allocated. *)
Definition insert_first_two (indices : list nat) : res (cover_node T * nat) :=
  do i0 <- at_ indices 0;
  do (node, used) <- cover_create_node (sp_size sp) 0 i0;
  if (sp_size sp =? 1)%nat then Ok (cn_set_level node s_zero, used)
  else
    do i1 <- at_ indices 1;
    do (node1, used1) <- cover_create_node (sp_size sp) used i1;
    let d := m_dist m (sp_at sp i0) (sp_at sp i1) in
    Ok (push_child (cn_set_level node (c_ceil cm (base_level d))) node1, used1).

(** PU/internal/cover_tree_builder.hpp:319-331: depth_first_buffer_copy into a
    buffer of [cap] elements. *)
Fixpoint depth_first_buffer_copy (cap : nat) (node : cover_node T) (used : nat)
  : res (cover_node T * nat) :=
  match node with
  | CoverNode l _ i cs =>
      do used1 <- buffer_allocate cap used;
      do (cs', used2) <-
        (fix go (cs : list (cover_node T)) (used : nat) : res (list (cover_node T) * nat) :=
           match cs with
           | [] => Ok ([], used)
           | c :: cs' =>
               do (c1, u1) <- depth_first_buffer_copy cap c used;
               do (cs1, u2) <- go cs' u1;
               Ok (c1 :: cs1, u2)
           end) cs used1;
      Ok (CoverNode l s_zero i cs', used2)
  end.

(** PU/internal/cover_tree_builder.hpp:341-350: max_distance. *)
Fixpoint max_distance (node : cover_node T) (x : list T) : T :=
  match node with
  | CoverNode _ _ _ cs =>
      fold_left (fun mx c => std_max mx (max_distance c x)) cs (cn_dist x node)
  end.

(** PU/internal/cover_tree_builder.hpp:333-339: update_max_distance. *)
Fixpoint update_max_distance (node : cover_node T) : cover_node T :=
  match node with
  | CoverNode l _ i cs =>
      CoverNode l (max_distance node (sp_at sp i)) i (map update_max_distance cs)
  end.

(** PU/internal/cover_tree_builder.hpp:27-62, 368-383: construction.
    [indices] is the shuffled vector of indices (35-40).  Simplification: indices
    are natural numbers; more points than index_type can count are not modelled. *)
Definition build_cover_tree (fuel : nat) (indices : list nat) : res (cover_node T) :=
  do _ <- guard (0 <? sp_size sp)%nat UbAssert;
  do (first, used) <- insert_first_two indices;
  do (node, _) <-
    fold_res
      (fun '(tree, used) idx =>
         do (node, used') <- cover_create_node (sp_size sp) used idx;
         do tree' <- cover_insert fuel tree node;
         Ok (tree', used'))
      (skipn 2 indices) (first, used);
  do (root, _) <- depth_first_buffer_copy (sp_size sp) node 0;
  Ok (update_max_distance root).
End Build.

(** PU/cover_tree.hpp:213-218: a cover_tree owns the space, the metric and the
    nodes. *)
Record cover_tree : Type := CoverTree {
  ct_space : space T;
  ct_metric : metric T;
  ct_root : cover_node T
}.

(** PU/cover_tree.hpp:76-81: the constructor.  [shuffle] stands for std::shuffle
    seeded by std::random_device: an arbitrary function. *)
Definition cover_tree_make (cm : cmath T) (alg : std_algos) (shuffle : list nat -> list nat)
    (m : metric T) (fuel : nat) (sp : space T) (base : T) : res cover_tree :=
  do root <- build_cover_tree cm alg m sp base fuel (shuffle (seq 0 (sp_size sp)));
  Ok (CoverTree sp m root).

Section Search.
Context {V : Type}.
Variables (alg : std_algos) (m : metric T) (vis : visitor T V) (sp : space T) (q : list T).

(** PU/internal/cover_tree_search.hpp:36-80: search_nearest.  The vector of
    children and distances is a vector of positions and distances. *)
Fixpoint cover_search_nearest (node : cover_node T) (st : V) : res V :=
  match node with
  | CoverNode _ _ i cs =>
      do _ <- guard (in_space sp i) UbIndex;
      let d := m_dist m q (sp_at sp i) in
      let st1 := if d <? v_max vis st then v_visit vis i d st else st in
      do _ <- guard (forallb (fun c => in_space sp (cn_index c)) cs) UbIndex;
      let go := map (fun c => cover_search_nearest c) cs in
      let sorted :=
        std_sort alg (nat * T)%type (fun a b => snd a <? snd b)
          (map (fun k => (k, m_dist m q (sp_at sp (cn_index (nth k cs node))))) (seq 0 (length cs))) in
      fold_res
        (fun st e =>
           let c := nth (fst e) cs node in
           if (m_dist m q (sp_at sp (cn_index c)) - cn_max_distance c) <? v_max vis st
           then nth (fst e) go (fun _ => Ub UbIndex) st
           else Ok st)
        sorted st1
  end.
End Search.

(** PU/cover_tree.hpp:198-211: search_nearest from the root.  The number of
    coordinates of the query must be that of the space (unchecked). *)
Definition cover_search {V} (alg : std_algos) (t : cover_tree) (vis : visitor T V)
    (x : list T) (v0 : V) : res V :=
  do _ <- guard (length x =? sp_sdim (ct_space t))%nat UbDim;
  cover_search_nearest alg (ct_metric t) vis (ct_space t) x (ct_root t) v0.

(** PU/cover_tree.hpp:84-88: search_nn(x, nn). *)
Definition cover_search_nn (alg : std_algos) (t : cover_tree) (x : list T) (nn : neighbor T)
  : res (neighbor T) :=
  cover_search alg t visitor_nn x (visitor_nn_init nn).

(** PU/cover_tree.hpp:91-96: search_nn(x, e, nn). *)
Definition cover_search_nn_approx (alg : std_algos) (t : cover_tree) (x : list T) (e : T)
    (nn : neighbor T) : res (neighbor T) :=
  cover_search alg t (visitor_approximate_nn e) x (visitor_nn_init nn).

(** PU/cover_tree.hpp:101-112: search_knn(x, begin, end). *)
Definition cover_search_knn_range (alg : std_algos) (t : cover_tree) (x : list T)
    (range : list (neighbor T)) : res (list (neighbor T)) :=
  do st0 <- visitor_knn_init range;
  do st <- cover_search alg t visitor_knn x st0;
  Ok (fst st).

(** PU/cover_tree.hpp:116-123: search_knn(x, k, knn). *)
Definition cover_search_knn (alg : std_algos) (t : cover_tree) (x : list T) (k : nat)
    (knn : list (neighbor T)) : res (list (neighbor T)) :=
  cover_search_knn_range alg t x (vector_resize knn (Nat.min k (sp_size (ct_space t)))).

(** PU/cover_tree.hpp:128-142: search_knn(x, e, begin, end). *)
Definition cover_search_knn_range_approx (alg : std_algos) (t : cover_tree) (x : list T) (e : T)
    (range : list (neighbor T)) : res (list (neighbor T)) :=
  do st0 <- visitor_knn_init range;
  do st <- cover_search alg t (visitor_approximate_knn e) x st0;
  Ok (fst st).

(** PU/cover_tree.hpp:146-156: search_knn(x, k, e, knn). *)
Definition cover_search_knn_approx (alg : std_algos) (t : cover_tree) (x : list T) (k : nat) (e : T)
    (knn : list (neighbor T)) : res (list (neighbor T)) :=
  cover_search_knn_range_approx alg t x e (vector_resize knn (Nat.min k (sp_size (ct_space t)))).

(** PU/cover_tree.hpp:160-172: search_radius(x, radius, n, sort). *)
Definition cover_search_radius (alg : std_algos) (t : cover_tree) (x : list T) (radius : T)
    (sort : bool) : res (list (neighbor T)) :=
  do n <- cover_search alg t (visitor_radius radius) x [];
  Ok (if sort then std_sort alg _ neighbor_lt n else n).

(** PU/cover_tree.hpp:176-189: search_radius(x, radius, e, n, sort). *)
Definition cover_search_radius_approx (alg : std_algos) (t : cover_tree) (x : list T) (radius e : T)
    (sort : bool) : res (list (neighbor T)) :=
  do n <- cover_search alg t (visitor_approximate_radius e radius) x [];
  Ok (if sort then std_sort alg _ neighbor_lt n else n).

End Model.

Arguments cover_tree T : clear implicits.
Arguments CoverTree {T} _ _ _.
