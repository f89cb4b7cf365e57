(** Model of trees as they lie in memory: nodes in the chunks of an allocator,
    connected by pointers, one index vector rearranged in place, tree objects
    that are constructed, loaded, moved, assigned, queried and destroyed.

    Citations are relative to /repo.  [PT] abbreviates src/pico_tree/pico_tree. *)
From Coq Require Import List ZArith Bool Arith.
From Verif Require Import Base ModelBox ModelBuild ModelSearch ModelSerial ModelMemory.
Import ListNotations.

(** PT/internal/kd_tree_node.hpp:24-27: the child pointers of a node.  A node
    that was allocated has indeterminate pointers (PT/internal/memory.hpp:65:
    new without initialiser). *)
Inductive child : Type :=
| CUninit
| CNull
| CPtr (p : ptr).

(** PT/internal/kd_tree_node.hpp:71-77: the union of a leaf and a branch, with
    the member written last. *)
Inductive payload (B : Type) : Type :=
| PUninit
| PLeaf (begin_idx end_idx : nat)
| PBranch (data : B).
Arguments PUninit {B}.
Arguments PLeaf {B} _ _.
Arguments PBranch {B} _.

(** PT/internal/kd_tree_node.hpp:7-28, 80-97, 100-117: a node in memory. *)
Record cell (B : Type) : Type := Cell { cl_left : child; cl_right : child; cl_data : payload B }.
Arguments Cell {B} _ _ _.
Arguments cl_left {B} _.
Arguments cl_right {B} _.
Arguments cl_data {B} _.

(** Memory of the nodes: the chunks (ModelMemory.v) and the content of the
    nodes.  Not code. *)
Definition cells (B : Type) : Type := ptr -> cell B.
(** Content of all memory before anything was written. *)
Definition no_cells {B} : cells B := fun _ => Cell CUninit CUninit PUninit.

(** Update of one node. *)
Definition set_cell {B} (m : cells B) (p : ptr) (c : cell B) : cells B :=
  fun q => if ((fst q =? fst p) && (snd q =? snd p))%nat then c else m q.

(** sizeof of a chunk, PT/internal/kd_tree_data.hpp:39. *)
Definition node_chunk : nat := 256.

(** Not code: does the pointer refer to a node in a chunk that is allocated? *)
Definition live_ptr (h : heap) (p : ptr) : bool :=
  (match find_node (h_live h) (fst p) with Some _ => true | None => false end)
  && (snd p <? node_chunk)%nat.

(** *p. *)
Definition load_cell {B} (h : heap) (m : cells B) (p : ptr) : res (cell B) :=
  do _ <- guard (live_ptr h p) UbDangling; Ok (m p).

(** p->field = ...: the node is overwritten with [f] of its content. *)
Definition store_cell {B} (h : heap) (m : cells B) (p : ptr) (f : cell B -> cell B) : res (cells B) :=
  do _ <- guard (live_ptr h p) UbDangling; Ok (set_cell m p (f (m p))).

(** Use of a pointer field as an address. *)
Definition as_ptr (c : child) : res ptr :=
  match c with
  | CUninit => Ub UbUninit
  | CNull => Ub UbNull
  | CPtr p => Ok p
  end.

(** field == nullptr. *)
Definition is_null (c : child) : res bool :=
  match c with
  | CUninit => Ub UbUninit
  | CNull => Ok true
  | CPtr _ => Ok false
  end.

(** PT/internal/kd_tree_node.hpp:13: is_leaf(). *)
Definition cell_is_leaf {B} (c : cell B) : res bool :=
  do l <- is_null (cl_left c);
  if l : bool then is_null (cl_right c) else Ok false.

(** data.leaf and data.branch: reading the member of the union that was not
    written last is undefined. *)
Definition cell_leaf {B} (c : cell B) : res (nat * nat) :=
  match cl_data c with PLeaf b e => Ok (b, e) | _ => Ub UbUninit end.
Definition cell_branch {B} (c : cell B) : res B :=
  match cl_data c with PBranch br => Ok br | _ => Ub UbUninit end.

(** PT/internal/kd_tree_node.hpp:16-21: set_leaf. *)
Definition set_leaf {B} (b e : nat) (c : cell B) : cell B := Cell CNull CNull (PLeaf b e).
(** node->left = p, node->right = p. *)
Definition set_left {B} (p : ptr) (c : cell B) : cell B := Cell (CPtr p) (cl_right c) (cl_data c).
Definition set_right {B} (p : ptr) (c : cell B) : cell B := Cell (cl_left c) (CPtr p) (cl_data c).
(** PT/internal/kd_tree_node.hpp:86-92, 105-113: set_branch; the values stored
    are those of [set_branch] in ModelBuild.v. *)
Definition set_data {B} (br : B) (c : cell B) : cell B := Cell (cl_left c) (cl_right c) (PBranch br).

(** A vector after the range that starts at position [b] was overwritten. *)
Definition overwrite {A} (l : list A) (b : nat) (new : list A) : list A :=
  firstn b l ++ new ++ skipn (b + length new) l.

Section HeapModel.
Context {T : Type} {SC : Scalar T}.
Variable c : category.
Local Notation B := (branch_data c T).
Local Open Scope scalar_scope.

(** What the builder works on: the memory, its allocator and the index vector
    (PT/internal/kd_tree_builder.hpp:428-432). *)
Record bstate : Type := BState {
  b_heap : heap;
  b_cells : cells B;
  b_alloc : allocator;
  b_indices : list nat
}.

(** A store to a node by the builder. *)
Definition b_store (s : bstate) (p : ptr) (f : cell B -> cell B) : res bstate :=
  do m <- store_cell (b_heap s) (b_cells s) p f;
  Ok (BState (b_heap s) m (b_alloc s) (b_indices s)).

(** PT/internal/memory.hpp:111-121: allocator.allocate(). *)
Definition b_allocate (s : bstate) : res (bstate * ptr) :=
  do (h, al, p) <- allocate node_chunk (b_heap s) (b_alloc s);
  Ok (BState h (b_cells s) al (b_indices s), p).

(** PT/internal/kd_tree_builder.hpp:351-396: create_node(depth, begin, end, box)
    with the iterators as positions [b], [e] of the index vector.  The standard
    algorithms called by the splitter rearrange [begin, end) in place. *)
Fixpoint create_node_h (alg : std_algos) (ru : rule) (it : index_type)
    (stop : stop_condition) (sp : space T)
    (fuel depth b e : nat) (bx : box T) (s : bstate) : res (bstate * ptr * box T) :=
  match fuel with
  | O => OutOfFuel
  | Datatypes.S fuel' =>
      do (s0, p) <- b_allocate s;
      do seg <- slice (b_indices s0) b e;
      if is_leaf it stop depth (e - b) then
        do s1 <- b_store s0 p (set_leaf b e);
        do _ <- guard (forallb (in_space sp) seg) UbIndex;
        let bx' :=
          match ru with
          | midpoint_max_side => if (b <? e)%nat then compute_bounding_box sp seg else bx
          | _ => compute_bounding_box sp seg
          end in
        Ok (s1, p, bx')
      else
        do (l, r, d, v) <- splitter alg ru sp seg bx;
        let split := (b + length l)%nat in
        let s1 := BState (b_heap s0) (b_cells s0) (b_alloc s0) (overwrite (b_indices s0) b (l ++ r)) in
        let left_box := box_set_max bx d v in
        let right_box := box_set_min bx d v in
        do (s2, pl, lb) <- create_node_h alg ru it stop sp fuel' (depth + 1)%nat b split left_box s1;
        do s3 <- b_store s2 p (set_left pl);
        do (s4, pr, rb) <- create_node_h alg ru it stop sp fuel' (depth + 1)%nat split e right_box s3;
        do s5 <- b_store s4 p (set_right pr);
        do s6 <- b_store s5 p (set_data (set_branch c lb rb d));
        Ok (s6, p, box_fit_box lb rb)
  end.

(** PT/kd_tree.hpp:410-416 and PT/internal/kd_tree_data.hpp:66-73: the members
    of a tree object.  The metric is stateless and fixed by the type. *)
Record tree_obj : Type := TreeObj {
  to_space : space T;
  to_indices : list nat;
  to_box : box T;
  to_alloc : allocator;
  to_root : child
}.

(** PT/internal/kd_tree_builder.hpp:471-494 and PT/kd_tree.hpp:76-88: the
    constructor of a tree.  The allocator is moved into the tree and the local
    one, left without memory, destroyed. *)
Definition build_h (alg : std_algos) (it : index_type) (fuel : nat)
    (sp : space T) (stop : stop_condition) (bnds : start_bounds T) (ru : rule)
    (h : heap) (m : cells B) : res (heap * cells B * tree_obj) :=
  do _ <- guard (stop_assert stop) UbAssert;
  do _ <- guard (0 <? sp_size sp)%nat UbAssert;
  do _ <- guard (Z.of_nat (sp_size sp) <=? it_max it)%Z UbOverflow;
  do _ <- guard (bounds_dim sp bnds) UbDim;
  let indices := seq 0 (sp_size sp) in
  let root_box := box_from_bounds sp bnds in
  do (s, p, _) <-
    create_node_h alg ru it stop sp fuel 0 0 (length indices) root_box
      (BState h m (new_allocator node_chunk) indices);
  let (al, old) := move_construct (b_alloc s) in
  do live <- release (length (h_live (b_heap s))) (h_live (b_heap s)) (al_head old);
  Ok (Heap live (h_next (b_heap s)), b_cells s, TreeObj sp (b_indices s) root_box al (CPtr p)).

Section Follow.
(** The memory at the time of a query. *)
Variables (h : heap) (mem : cells B).

(** PT/internal/kd_tree_data.hpp:60-64, 76-87: leaf_ranges.  The [else] branch
    is also taken for an empty leaf. *)
Fixpoint insert_leaf_range_h (indices : list nat) (fuel : nat) (n : child)
    (ranges : list (list nat)) : res (list (list nat)) :=
  match fuel with
  | O => OutOfFuel
  | Datatypes.S fuel' =>
      do p <- as_ptr n;
      do nd <- load_cell h mem p;
      do leaf <- cell_is_leaf nd;
      do full <- (if leaf : bool then do be <- cell_leaf nd; Ok (negb (fst be =? snd be)%nat) else Ok false);
      if full : bool then
        do be <- cell_leaf nd;
        do r <- slice indices (fst be) (snd be);
        Ok (ranges ++ [r])
      else
        do ranges' <- insert_leaf_range_h indices fuel' (cl_left nd) ranges;
        insert_leaf_range_h indices fuel' (cl_right nd) ranges'
  end.

(** PT/internal/kd_tree_data.hpp:109-120: write_node.  [pads], [pos]: see
    [write_node] in ModelSerial.v. *)
Fixpoint write_node_h (little : bool) (it : index_type) (tc : codec T)
    (pads : nat -> nat -> Z) (fuel : nat) (n : child) (pos : nat) : res (list Z) :=
  match fuel with
  | O => OutOfFuel
  | Datatypes.S fuel' =>
      do p <- as_ptr n;
      do nd <- load_cell h mem p;
      do leaf <- cell_is_leaf nd;
      if leaf : bool then
        do be <- cell_leaf nd;
        Ok (bool_enc true ++ leaf_bytes little it (pads pos) (fst be) (snd be))
      else
        do br <- cell_branch nd;
        let hd := bool_enc false ++ branch_bytes little tc (pads pos) c br in
        do bl <- write_node_h little it tc pads fuel' (cl_left nd) (pos + length hd)%nat;
        do brr <- write_node_h little it tc pads fuel' (cl_right nd) (pos + length hd + length bl)%nat;
        Ok (hd ++ bl ++ brr)
  end.

(** PT/internal/kd_tree_search.hpp:358-372: report_left, report_right. *)
Fixpoint report_left_h (fuel : nat) (n : child) : res nat :=
  match fuel with
  | O => OutOfFuel
  | Datatypes.S fuel' =>
      do p <- as_ptr n;
      do nd <- load_cell h mem p;
      do leaf <- cell_is_leaf nd;
      if leaf : bool then do be <- cell_leaf nd; Ok (fst be) else report_left_h fuel' (cl_left nd)
  end.
Fixpoint report_right_h (fuel : nat) (n : child) : res nat :=
  match fuel with
  | O => OutOfFuel
  | Datatypes.S fuel' =>
      do p <- as_ptr n;
      do nd <- load_cell h mem p;
      do leaf <- cell_is_leaf nd;
      if leaf : bool then do be <- cell_leaf nd; Ok (snd be) else report_right_h fuel' (cl_right nd)
  end.

(** PT/internal/kd_tree_search.hpp:336-356: report_node. *)
Definition report_node_h (indices : list nat) (fuel : nat) (n : child) (idxs : list nat) : res (list nat) :=
  do p <- as_ptr n;
  do nd <- load_cell h mem p;
  do leaf <- cell_is_leaf nd;
  do (b, e) <-
    (if leaf : bool then cell_leaf nd
     else do b <- report_left_h fuel (cl_left nd);
          do e <- report_right_h fuel (cl_right nd);
          Ok (b, e));
  do _ <- guard (b <=? e)%nat UbIndex;
  do is_ <- slice indices b e;
  Ok (idxs ++ is_).

(** PT/internal/kd_tree_search.hpp:270-306: operator() of search_box. *)
Fixpoint search_box_node_h (m : metric T) (sp : space T) (indices : list nat) (query : box T)
    (fuel : nat) (n : child) (st : box T * list nat) : res (box T * list nat) :=
  match fuel with
  | O => OutOfFuel
  | Datatypes.S fuel' =>
      do p <- as_ptr n;
      do nd <- load_cell h mem p;
      do leaf <- cell_is_leaf nd;
      if leaf : bool then
        do be <- cell_leaf nd;
        do is_ <- slice indices (fst be) (snd be);
        do idxs <- collect_range m sp query c is_ (snd st);
        Ok (fst st, idxs)
      else
        do br <- cell_branch nd;
        let split_dim := br_split_dim c br in
        do old_max <- at_ (box_max (fst st)) split_dim;
        let box1 := box_set_max (fst st) split_dim (br_left_max c br) in
        do in_left <- query_contains_box m query c box1;
        do st1 <-
          (if in_left : bool then
             do idxs <- report_node_h indices fuel' (cl_left nd) (snd st); Ok (box1, idxs)
           else if intersects_left query c br then
             search_box_node_h m sp indices query fuel' (cl_left nd) (box1, snd st)
           else Ok (box1, snd st));
        let box2 := box_set_max (fst st1) split_dim old_max in
        do old_min <- at_ (box_min box2) split_dim;
        let box3 := box_set_min box2 split_dim (br_right_min c br) in
        do in_right <- query_contains_box m query c box3;
        do st2 <-
          (if in_right : bool then
             do idxs <- report_node_h indices fuel' (cl_right nd) (snd st1); Ok (box3, idxs)
           else if intersects_right query c br then
             search_box_node_h m sp indices query fuel' (cl_right nd) (box3, snd st1)
           else Ok (box3, snd st1));
        Ok (box_set_min (fst st2) split_dim old_min, snd st2)
  end.
End Follow.

Section FollowNearest.
Variables (h : heap).
Context {V : Type}.
Variables (m : metric T) (vis : visitor T V) (sp : space T) (indices : list nat) (q : list T).

(** PT/internal/kd_tree_search.hpp:52-105: search_nearest_euclidean. *)
Fixpoint search_nearest_euclidean_h (mem : cells (branch_single T)) (fuel : nat) (n : child)
    (node_box_distance : T) (st : list T * V) : res (list T * V) :=
  match fuel with
  | O => OutOfFuel
  | Datatypes.S fuel' =>
      do p <- as_ptr n;
      do nd <- load_cell h mem p;
      do leaf <- cell_is_leaf nd;
      if leaf : bool then
        do be <- cell_leaf nd;
        do is_ <- slice indices (fst be) (snd be);
        do v' <- visit_range m vis sp q is_ (snd st);
        Ok (fst st, v')
      else
        do br <- cell_branch nd;
        let split_dim := bs_split_dim br in
        do v <- at_ q split_dim;
        let go_left := s_zero <? (bs_left_max br + bs_right_min br - v - v) in
        let new_offset :=
          if go_left then m_app m (bs_right_min br - v) else m_app m (bs_left_max br - v) in
        do st1 <- search_nearest_euclidean_h mem fuel'
                    (if go_left then cl_left nd else cl_right nd) node_box_distance st;
        do old_offset <- at_ (fst st1) split_dim;
        let node_box_distance' := node_box_distance - old_offset + new_offset in
        if node_box_distance' <=? v_max vis (snd st1) then
          do st2 <- search_nearest_euclidean_h mem fuel'
                      (if go_left then cl_right nd else cl_left nd) node_box_distance'
                      (set_nth (fst st1) split_dim new_offset, snd st1);
          Ok (set_nth (fst st2) split_dim old_offset, snd st2)
        else Ok st1
  end.

(** PT/internal/kd_tree_search.hpp:150-203: search_nearest_topological. *)
Fixpoint search_nearest_topological_h (mem : cells (branch_double T)) (fuel : nat) (n : child)
    (node_box_distance : T) (st : list T * V) : res (list T * V) :=
  match fuel with
  | O => OutOfFuel
  | Datatypes.S fuel' =>
      do p <- as_ptr n;
      do nd <- load_cell h mem p;
      do leaf <- cell_is_leaf nd;
      if leaf : bool then
        do be <- cell_leaf nd;
        do is_ <- slice indices (fst be) (snd be);
        do v' <- visit_range m vis sp q is_ (snd st);
        Ok (fst st, v')
      else
        do br <- cell_branch nd;
        let split_dim := bd_split_dim br in
        do v <- at_ q split_dim;
        do d1 <- box_distance m (bd_left_min br) (bd_left_max br) v split_dim;
        do d2 <- box_distance m (bd_right_min br) (bd_right_max br) v split_dim;
        let go_left := d1 <? d2 in
        let new_offset := if go_left then d2 else d1 in
        do st1 <- search_nearest_topological_h mem fuel'
                    (if go_left then cl_left nd else cl_right nd) node_box_distance st;
        do old_offset <- at_ (fst st1) split_dim;
        let node_box_distance' := node_box_distance - old_offset + new_offset in
        if node_box_distance' <=? v_max vis (snd st1) then
          do st2 <- search_nearest_topological_h mem fuel'
                      (if go_left then cl_right nd else cl_left nd) node_box_distance'
                      (set_nth (fst st1) split_dim new_offset, snd st1);
          Ok (set_nth (fst st2) split_dim old_offset, snd st2)
        else Ok st1
  end.
End FollowNearest.

(** Not code: pointers are followed at most this many steps deep, once per node
    that memory can hold, and once more to find that there is nothing left.  A
    deeper walk would have gone in a circle. *)
Definition walk_fuel (h : heap) : nat := Datatypes.S (length (h_live h) * node_chunk).

(** PT/internal/kd_tree_data.hpp:90-106: read_node. *)
Fixpoint read_node_h (little : bool) (it : index_type) (tc : codec T)
    (fuel : nat) (st : stream) (s : bstate) : res (bstate * ptr * stream) :=
  match fuel with
  | O => OutOfFuel
  | Datatypes.S fuel' =>
      do (s0, p) <- b_allocate s;
      do (b, st1) <- read_bytes 1 st;
      do leaf <- bool_dec b;
      if leaf : bool then
        do (lb, st2) <- read_bytes (layout_size (leaf_layout little it)) st1;
        do be <- leaf_value little it lb;
        do s1 <- b_store s0 p (set_leaf (fst be) (snd be));
        Ok (s1, p, st2)
      else
        do (bb, st2) <- read_bytes (layout_size (branch_layout little tc c)) st1;
        do br <- branch_value little tc c bb;
        do s1 <- b_store s0 p (set_data br);
        do (s2, pl, st3) <- read_node_h little it tc fuel' st2 s1;
        do s3 <- b_store s2 p (set_left pl);
        do (s4, pr, st4) <- read_node_h little it tc fuel' st3 s3;
        do s5 <- b_store s4 p (set_right pr);
        Ok (s5, p, st4)
  end.

(** PT/kd_tree.hpp:350-353, 375-378 and PT/internal/kd_tree_data.hpp:43-52,
    122-128: load(space, stream). *)
Definition load_h (little : bool) (it : index_type) (tc : codec T) (sp : space T) (bytes : list Z)
    (h : heap) (m : cells B) : res (heap * cells B * tree_obj * stream) :=
  do (b, s1) <- read_bytes (c_size (size_codec little)) (Some bytes);
  do sdim <- c_dec (size_codec little) b;
  do (b2, s2) <- read_bytes (c_size (size_codec little)) s1;
  do size <- c_dec (size_codec little) b2;
  do (indices, s3) <- read_array (index_codec little it) size 0%nat s2;
  do (mn, s4) <- read_array tc sdim s_zero s3;
  do (mx, s5) <- read_array tc sdim s_zero s4;
  do (s, p, s6) <-
    read_node_h little it tc (Datatypes.S (match s5 with Some b => length b | None => 0 end)) s5
      (BState h m (new_allocator node_chunk) indices);
  Ok (b_heap s, b_cells s, TreeObj sp (b_indices s) (Box mn mx) (b_alloc s) (CPtr p), s6).
End HeapModel.

Arguments bstate T c : clear implicits.
Arguments BState {T c} _ _ _ _.
Arguments b_heap {T c} _.
Arguments b_cells {T c} _ _.
Arguments b_alloc {T c} _.
Arguments b_indices {T c} _.
Arguments tree_obj T : clear implicits.
Arguments TreeObj {T} _ _ _ _ _.
Arguments to_space {T} _.
Arguments to_indices {T} _.
Arguments to_box {T} _.
Arguments to_alloc {T} _.
Arguments to_root {T} _.

(** * Queries *)

(** A call on a tree object (PT/kd_tree.hpp:106-129, 154-159, 168-195, 204-237,
    256-290, 295-318, 325-327, 367-370): the searches, leaf_ranges and save. *)
Inductive query (T : Type) : Type :=
| QNearest (V : Type) (vis : visitor T V) (x : list T) (v0 : V)
| QNn (x : list T) (nn : neighbor T)
| QNnApprox (x : list T) (e : T) (nn : neighbor T)
| QKnn (x : list T) (k : nat) (knn : list (neighbor T))
| QKnnApprox (x : list T) (k : nat) (e : T) (knn : list (neighbor T))
| QRadius (x : list T) (radius : T) (sort : bool)
| QRadiusApprox (x : list T) (radius e : T) (sort : bool)
| QBox (mn mx : list T)
| QLeaves
| QSave (pads : nat -> nat -> Z).
Arguments QNearest {T} V _ _ _.
Arguments QNn {T} _ _.
Arguments QNnApprox {T} _ _ _.
Arguments QKnn {T} _ _ _.
Arguments QKnnApprox {T} _ _ _ _.
Arguments QRadius {T} _ _ _.
Arguments QRadiusApprox {T} _ _ _ _.
Arguments QBox {T} _ _.
Arguments QLeaves {T}.
Arguments QSave {T} _.

(** What a call yields. *)
Inductive answer (T : Type) : Type :=
| AVisitor (V : Type) (v : V)
| ANeighbor (n : neighbor T)
| ANeighbors (l : list (neighbor T))
| AIndices (l : list nat)
| ARanges (l : list (list nat))
| ABytes (l : list Z).
Arguments AVisitor {T} V _.
Arguments ANeighbor {T} _.
Arguments ANeighbors {T} _.
Arguments AIndices {T} _.
Arguments ARanges {T} _.
Arguments ABytes {T} _.

Section Objects.
Context {T : Type} {SC : Scalar T}.
Variables (alg : std_algos) (little : bool) (it : index_type) (tc : codec T) (m : metric T).
Local Notation c := (m_cat m).
Local Notation B := (branch_data c T).

(** PT/kd_tree.hpp:106-120, 382-408: search_nearest. *)
Definition search_nearest_h {V} (h : heap) (mem : cells B) (o : tree_obj T)
    (vis : visitor T V) (x : list T) (v0 : V) : res V :=
  do _ <- guard (length x =? sp_sdim (to_space o))%nat UbDim;
  let offsets := tab (sp_sdim (to_space o)) (fun _ => s_zero) in
  match c as c' return cells (branch_data c' T) -> res V with
  | Euclidean => fun mem =>
      do st <- search_nearest_euclidean_h h m vis (to_space o) (to_indices o) x mem
                 (walk_fuel h) (to_root o) s_zero (offsets, v0);
      Ok (snd st)
  | Topological => fun mem =>
      do st <- search_nearest_topological_h h m vis (to_space o) (to_indices o) x mem
                 (walk_fuel h) (to_root o) s_zero (offsets, v0);
      Ok (snd st)
  end mem.

(** PT/kd_tree.hpp:168-181, 204-218: search_knn on a range, with the visitor of
    the exact or of the approximate search. *)
Definition search_knn_range_h (h : heap) (mem : cells B) (o : tree_obj T)
    (vis : visitor T (list (neighbor T) * nat)) (x : list T) (range : list (neighbor T))
  : res (list (neighbor T)) :=
  do st0 <- visitor_knn_init range;
  do st <- search_nearest_h h mem o vis x st0;
  Ok (fst st).

(** Dispatch of a call.  Each case cites the function it stands for in
    [query]. *)
Definition query_h (h : heap) (mem : cells B) (o : tree_obj T) (qu : query T) : res (answer T) :=
  match qu with
  | QNearest V vis x v0 => do v <- search_nearest_h h mem o vis x v0; Ok (AVisitor V v)
  | QNn x nn =>
      do n <- search_nearest_h h mem o visitor_nn x (visitor_nn_init nn); Ok (ANeighbor n)
  | QNnApprox x e nn =>
      do n <- search_nearest_h h mem o (visitor_approximate_nn e) x (visitor_nn_init nn); Ok (ANeighbor n)
  | QKnn x k knn =>
      do l <- search_knn_range_h h mem o visitor_knn x
                (vector_resize knn (Nat.min k (sp_size (to_space o))));
      Ok (ANeighbors l)
  | QKnnApprox x k e knn =>
      do l <- search_knn_range_h h mem o (visitor_approximate_knn e) x
                (vector_resize knn (Nat.min k (sp_size (to_space o))));
      Ok (ANeighbors l)
  | QRadius x radius sort =>
      do n <- search_nearest_h h mem o (visitor_radius radius) x [];
      Ok (ANeighbors (if sort then std_sort alg _ neighbor_lt n else n))
  | QRadiusApprox x radius e sort =>
      do n <- search_nearest_h h mem o (visitor_approximate_radius e radius) x [];
      Ok (ANeighbors (if sort then std_sort alg _ neighbor_lt n else n))
  | QBox mn mx =>
      do _ <- guard ((length mn =? sp_sdim (to_space o))
                     && (length mx =? sp_sdim (to_space o)))%nat UbDim;
      do st <- search_box_node_h c h mem m (to_space o) (to_indices o) (Box mn mx)
                 (walk_fuel h) (to_root o) (to_box o, []);
      Ok (AIndices (snd st))
  | QLeaves =>
      do l <- insert_leaf_range_h c h mem (to_indices o) (walk_fuel h) (to_root o) [];
      Ok (ARanges l)
  | QSave pads =>
      do nodes <- write_node_h c h mem little it tc pads (walk_fuel h) (to_root o) 0;
      Ok (ABytes (c_enc (size_codec little) (length (box_min (to_box o)))
                  ++ c_enc (size_codec little) (length (to_indices o))
                  ++ write_array (index_codec little it) (to_indices o)
                  ++ write_array tc (box_min (to_box o))
                  ++ write_array tc (box_max (to_box o))
                  ++ nodes))
  end.

(** * Programs that use tree objects *)

(** What a program can do with tree objects named by numbers. *)
Inductive tree_op : Type :=
| TBuild (x : nat) (sp : space T) (stop : stop_condition) (bnds : start_bounds T) (ru : rule)
| TLoad (x : nat) (sp : space T) (bytes : list Z)
| TMove (x y : nat)      (* auto x = std::move(y) *)
| TAssign (x y : nat)    (* x = std::move(y) *)
| TDestroy (x : nat)
| TQuery (x : nat) (q : query T).

(** The objects in scope and the memory.  Simplification: all trees of the
    program are of one type. *)
Record world : Type := World { w_obj : nat -> option (tree_obj T); w_heap : heap; w_cells : cells B }.

(** What is left of the space, of the index vector and of the root box of an
    object that was moved from: up to their move constructors. *)
Record moved_parts : Type := MovedParts {
  mp_space : space T -> space T;
  mp_indices : list nat -> list nat;
  mp_box : box T -> box T
}.
Variable mp : moved_parts.

(** The number of nodes on a path that a build may reach (see [create_node]). *)
Variable fuel : nat.

(** PT/kd_tree.hpp:95, 101: the defaulted move constructor and move assignment,
    memberwise; root_node is a plain pointer and copied
    (PT/internal/kd_tree_data.hpp:66-73).  The new (or assigned) object and the
    source afterwards. *)
Definition moved_from (o : tree_obj T) (al : allocator) : tree_obj T :=
  TreeObj (mp_space mp (to_space o)) (mp_indices mp (to_indices o)) (mp_box mp (to_box o)) al (to_root o).
Definition tree_move (src : tree_obj T) : tree_obj T * tree_obj T :=
  let (al, old) := move_construct (to_alloc src) in
  (TreeObj (to_space src) (to_indices src) (to_box src) al (to_root src), moved_from src old).
Definition tree_assign (dst src : tree_obj T) : tree_obj T * tree_obj T :=
  let (al, old) := move_assign (to_alloc dst) (to_alloc src) in
  (TreeObj (to_space src) (to_indices src) (to_box src) al (to_root src), moved_from src old).

(** One step, and the answer of a query.  Steps that do not make sense (on names
    that do not exist, or exist already) do nothing. *)
Definition tree_step (w : world) (op : tree_op) : res (world * option (answer T)) :=
  match op with
  | TBuild x sp stop bnds ru =>
      match w_obj w x with
      | Some _ => Ok (w, None)
      | None =>
          do (h, mem, o) <- build_h c alg it fuel sp stop bnds ru (w_heap w) (w_cells w);
          Ok (World (set_var (w_obj w) x (Some o)) h mem, None)
      end
  | TLoad x sp bytes =>
      match w_obj w x with
      | Some _ => Ok (w, None)
      | None =>
          do (h, mem, o, _) <- load_h c little it tc sp bytes (w_heap w) (w_cells w);
          Ok (World (set_var (w_obj w) x (Some o)) h mem, None)
      end
  | TMove x y =>
      match w_obj w x, w_obj w y with
      | None, Some src =>
          let (n, old) := tree_move src in
          Ok (World (set_var (set_var (w_obj w) y (Some old)) x (Some n)) (w_heap w) (w_cells w), None)
      | _, _ => Ok (w, None)
      end
  | TAssign x y =>
      match w_obj w x, w_obj w y with
      | Some dst, Some src =>
          if (x =? y)%nat then
            Ok (World (set_var (w_obj w) x (Some (moved_from dst (self_move_assign (to_alloc dst)))))
                      (w_heap w) (w_cells w), None)
          else
            let (n, old) := tree_assign dst src in
            Ok (World (set_var (set_var (w_obj w) y (Some old)) x (Some n)) (w_heap w) (w_cells w), None)
      | _, _ => Ok (w, None)
      end
  | TDestroy x =>
      match w_obj w x with
      | None => Ok (w, None)
      | Some o =>
          do live <- release (length (h_live (w_heap w))) (h_live (w_heap w)) (al_head (to_alloc o));
          Ok (World (set_var (w_obj w) x None) (Heap live (h_next (w_heap w))) (w_cells w), None)
      end
  | TQuery x q =>
      match w_obj w x with
      | None => Ok (w, None)
      | Some o => do a <- query_h (w_heap w) (w_cells w) o q; Ok (w, Some a)
      end
  end.

(** A program: the final state and the answers, in order. *)
Fixpoint tree_run (w : world) (ops : list tree_op) : res (world * list (option (answer T))) :=
  match ops with
  | [] => Ok (w, [])
  | op :: r =>
      do (w1, a) <- tree_step w op;
      do (w2, l) <- tree_run w1 r;
      Ok (w2, a :: l)
  end.
Definition tree_start : world := World (fun _ => None) (Heap [] 0) no_cells.
End Objects.

Arguments TBuild {T} _ _ _ _ _.
Arguments TLoad {T} _ _ _.
Arguments TMove {T} _ _.
Arguments TAssign {T} _ _.
Arguments TDestroy {T} _.
Arguments TQuery {T} _ _.
Arguments tree_op T : clear implicits.
Arguments world {T} m.
Arguments World {T m} _ _ _.
Arguments w_obj {T m} _ _.
Arguments w_heap {T m} _.
Arguments w_cells {T m} _ _.
Arguments moved_parts T : clear implicits.
Arguments MovedParts {T} _ _ _.
Arguments tree_start {T} m.
