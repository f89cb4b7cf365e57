(** Model of kd_tree construction.

    Citations are relative to /repo.  [PT] abbreviates src/pico_tree/pico_tree. *)
From Coq Require Import List ZArith Bool Arith.
From Verif Require Import Base ModelBox.
Import ListNotations.

(** PT/internal/space_wrapper.hpp:15-55 and PT/space_traits.hpp: a space gives
    its spatial dimension, its size and the coordinates of point i.
    Simplification: the traits specialisations (vector, array, Eigen, OpenCV,
    space_map) are all this record. *)
Record space (T : Type) : Type := Space { sp_sdim : nat; sp_pts : list (list T) }.
Arguments Space {T} _ _.
Arguments sp_sdim {T} _.
Arguments sp_pts {T} _.

(** PT/internal/kd_tree_node.hpp:42-50: branch data of a Euclidean tree. *)
Record branch_single (T : Type) : Type :=
  BranchSingle { bs_split_dim : nat; bs_left_max : T; bs_right_min : T }.
Arguments BranchSingle {T} _ _ _.
Arguments bs_split_dim {T} _.
Arguments bs_left_max {T} _.
Arguments bs_right_min {T} _.

(** PT/internal/kd_tree_node.hpp:55-67: branch data of a topological tree. *)
Record branch_double (T : Type) : Type :=
  BranchDouble { bd_split_dim : nat; bd_left_min : T; bd_left_max : T;
                 bd_right_min : T; bd_right_max : T }.
Arguments BranchDouble {T} _ _ _ _ _.
Arguments bd_split_dim {T} _.
Arguments bd_left_min {T} _.
Arguments bd_left_max {T} _.
Arguments bd_right_min {T} _.
Arguments bd_right_max {T} _.

(** PT/internal/kd_tree_builder.hpp:440-453: node type by space tag. *)
Definition branch_data (c : category) (T : Type) : Type :=
  match c with
  | Euclidean => branch_single T
  | Topological => branch_double T
  end.

(** PT/internal/kd_tree_node.hpp:7-39, 71-117: a node is a leaf (both child
    pointers null) with an index range, or a branch (both non-null).
    Simplification: the tree of heap nodes is an inductive tree, so a node with
    exactly one null child cannot be expressed; no code creates one. *)
Inductive node (B : Type) : Type :=
| Leaf (begin_idx end_idx : nat)
| Branch (data : B) (left right : node B).
Arguments Leaf {B} _ _.
Arguments Branch {B} _ _ _.

(** PT/internal/kd_tree_data.hpp:66-73: kd_tree_data without the allocator
    (modelled in ModelMemory.v). *)
Record kd_tree_data (c : category) (T : Type) : Type := KdTreeData {
  kd_indices : list nat;
  kd_root_box : box T;
  kd_root : node (branch_data c T)
}.
Arguments KdTreeData {c T} _ _ _.
Arguments kd_indices {c T} _.
Arguments kd_root_box {c T} _.
Arguments kd_root {c T} _.

(** PT/internal/kd_tree_builder.hpp:92-104: stop conditions hold a size_t. *)
Inductive stop_condition : Type :=
| max_leaf_size (value : Z)
| max_leaf_depth (value : Z).

(** PT/internal/kd_tree_builder.hpp:120-138: start bounds. *)
Inductive start_bounds (T : Type) : Type :=
| bounds_from_space
| bounds_user (mn mx : list T).
Arguments bounds_from_space {T}.
Arguments bounds_user {T} _ _.

(** PT/internal/kd_tree_builder.hpp:19-72: splitter rules. *)
Inductive rule : Type :=
| median_max_side
| midpoint_max_side
| sliding_midpoint_max_side.

(** The standard algorithms called by the library, as functions on the range
    they are given.  Their contract is [std_laws] in Spec.v.
    - std::partition returns the range split at the returned iterator;
    - std::nth_element returns the rearranged range;
    - std::sort returns the rearranged range. *)
Record std_algos : Type := StdAlgos {
  std_partition : (nat -> bool) -> list nat -> list nat * list nat;
  std_nth_element : (nat -> nat -> bool) -> nat -> list nat -> list nat;
  std_sort : forall A : Type, (A -> A -> bool) -> list A -> list A
}.

Section Model.
Context {T : Type} {S : Scalar T}.
Local Open Scope scalar_scope.

(** PT/internal/space_wrapper.hpp:42: size(). *)
Definition sp_size (sp : space T) : nat := length (sp_pts sp).

(** PT/internal/space_wrapper.hpp:29-32: operator[].  Total here; callers check
    the index first with [in_space]. *)
Definition sp_at (sp : space T) (i : nat) : list T := nth i (sp_pts sp) [].

(** Not code: is [i] a valid argument of space_[i]? *)
Definition in_space (sp : space T) (i : nat) : bool := (i <? sp_size sp)%nat.

(** space_[i][d]. *)
Definition coord (sp : space T) (d i : nat) : T := get (sp_at sp i) d.

(** PT/internal/space_wrapper.hpp:34-40: compute_bounding_box of the space. *)
Definition sp_bounding_box (sp : space T) : box T :=
  fold_left box_fit (sp_pts sp) (box_inverse_max (sp_sdim sp)).

(** PT/internal/kd_tree_builder.hpp:398-407: compute_bounding_box of a range. *)
Definition compute_bounding_box (sp : space T) (seg : list nat) : box T :=
  fold_left (fun b i => box_fit b (sp_at sp i)) seg (box_inverse_max (sp_sdim sp)).

(** PT/internal/kd_tree_builder.hpp:497-511: box_from_bounds. *)
Definition box_from_bounds (sp : space T) (bnds : start_bounds T) : box T :=
  match bnds with
  | bounds_from_space => sp_bounding_box sp
  | bounds_user mn mx => box_fit (box_fit (box_inverse_max (sp_sdim sp)) mn) mx
  end.

(** A splitter's output: [begin,split), [split,end), split_dim, split_val. *)
Definition split_result : Type := (list nat * list nat * nat * T)%type.

(** The call box.max_side(split_dim, max_delta) in the splitters followed by the
    accesses space_[index][split_dim] for index in the range (lines 163-175,
    203-211, 239-247): undefined when split_dim stays uninitialised or an index
    is out of range. *)
Definition split_side (sp : space T) (seg : list nat) (bx : box T) : res (nat * T) :=
  match box_max_side bx with
  | (None, _) => Ub UbUninit
  | (Some d, delta) =>
      do _ <- guard (forallb (in_space sp) seg && (d <? sp_sdim sp)%nat) UbIndex;
      Ok (d, delta)
  end.

(** The comparison lambda of nth_element (lines 171-173, 261-263, 271-273). *)
Definition coord_lt (sp : space T) (d : nat) (a b : nat) : bool :=
  coord sp d a <? coord sp d b.

(** PT/internal/kd_tree_builder.hpp:152-176: splitter_median_max_side. *)
Definition split_median (alg : std_algos) (sp : space T) (seg : list nat) (bx : box T)
  : res split_result :=
  do (d, _) <- split_side sp seg bx;
  let h := (length seg / 2)%nat in
  let seg' := std_nth_element alg (coord_lt sp d) h seg in
  do i <- at_ seg' h;
  do _ <- guard (in_space sp i) UbIndex;
  Ok (firstn h seg', skipn h seg', d, coord sp d i).

(** PT/internal/kd_tree_builder.hpp:192-212: splitter_midpoint_max_side. *)
Definition split_midpoint (alg : std_algos) (sp : space T) (seg : list nat) (bx : box T)
  : res split_result :=
  do (d, delta) <- split_side sp seg bx;
  let v := delta * s_half + get (box_min bx) d in
  let '(l, r) := std_partition alg (fun i => coord sp d i <? v) seg in
  Ok (l, r, d, v).

(** PT/internal/kd_tree_builder.hpp:228-276: splitter_sliding_midpoint_max_side.
    [split--] on an empty range and [*split] at the end are undefined. *)
Definition split_sliding (alg : std_algos) (sp : space T) (seg : list nat) (bx : box T)
  : res split_result :=
  do (d, delta) <- split_side sp seg bx;
  let v := delta / s_two + get (box_min bx) d in
  let '(l, r) := std_partition alg (fun i => coord sp d i <? v) seg in
  let both := l ++ r in
  match r with
  | [] =>
      match length both with
      | O => Ub UbIndex
      | Datatypes.S h =>
          let seg' := std_nth_element alg (coord_lt sp d) h both in
          do i <- at_ seg' h;
          do _ <- guard (in_space sp i) UbIndex;
          Ok (firstn h seg', skipn h seg', d, coord sp d i)
      end
  | _ :: _ =>
      match l with
      | [] =>
          let seg' := std_nth_element alg (coord_lt sp d) 1 both in
          do i <- at_ seg' 1;
          do _ <- guard (in_space sp i) UbIndex;
          Ok (firstn 1 seg', skipn 1 seg', d, coord sp d i)
      | _ :: _ => Ok (l, r, d, v)
      end
  end.

(** PT/internal/kd_tree_builder.hpp:282-301, 377: splitter by rule. *)
Definition splitter (alg : std_algos) (ru : rule) : space T -> list nat -> box T -> res split_result :=
  match ru with
  | median_max_side => split_median alg
  | midpoint_max_side => split_midpoint alg
  | sliding_midpoint_max_side => split_sliding alg
  end.

(** PT/internal/kd_tree_builder.hpp:329, 409-425: is_leaf; the stop value was
    narrowed to the index type. *)
Definition is_leaf (it : index_type) (stop : stop_condition) (depth len : nat) : bool :=
  match stop with
  | max_leaf_size v => (Z.of_nat len <=? it_cast it v)%Z
  | max_leaf_depth v => (Z.of_nat depth =? it_cast it v)%Z || (len <=? 1)%nat
  end.

(** PT/internal/kd_tree_node.hpp:86-92, 105-113: set_branch. *)
Definition set_branch (c : category) (lb rb : box T) (d : nat) : branch_data c T :=
  match c return branch_data c T with
  | Euclidean => BranchSingle d (get (box_max lb) d) (get (box_min rb) d)
  | Topological =>
      BranchDouble d (get (box_min lb) d) (get (box_max lb) d)
                     (get (box_min rb) d) (get (box_max rb) d)
  end.

(** PT/internal/kd_tree_builder.hpp:351-396: create_node for the range that
    starts at position [off] of the index vector and currently holds [seg].
    Returns the node, the range after all rearrangements and the updated box
    argument.  Simplifications: the range is passed as a list instead of two
    iterators into the vector (nothing outside the range is touched); node
    allocation is modelled separately; depth does not wrap (it is bounded by the
    number of points or by the stop value, both representable). *)
Fixpoint create_node (c : category) (alg : std_algos) (ru : rule) (it : index_type)
    (stop : stop_condition) (sp : space T)
    (fuel depth off : nat) (seg : list nat) (bx : box T)
  : res (node (branch_data c T) * list nat * box T) :=
  match fuel with
  | O => OutOfFuel
  | Datatypes.S fuel' =>
      if is_leaf it stop depth (length seg) then
        do _ <- guard (forallb (in_space sp) seg) UbIndex;
        let bx' :=
          match ru with
          | midpoint_max_side =>
              match seg with [] => bx | _ :: _ => compute_bounding_box sp seg end
          | _ => compute_bounding_box sp seg
          end in
        Ok (Leaf off (off + length seg)%nat, seg, bx')
      else
        do (l, r, d, v) <- splitter alg ru sp seg bx;
        let left_box := box_set_max bx d v in
        let right_box := box_set_min bx d v in
        do (nl, segl, lb) <-
          create_node c alg ru it stop sp fuel' (depth + 1)%nat off l left_box;
        do (nr, segr, rb) <-
          create_node c alg ru it stop sp fuel' (depth + 1)%nat (off + length l)%nat r right_box;
        Ok (Branch (set_branch c lb rb d) nl nr, segl ++ segr, box_fit_box lb rb)
  end.

(** PT/internal/kd_tree_builder.hpp:93: assert(value > 0). *)
Definition stop_assert (stop : stop_condition) : bool :=
  match stop with
  | max_leaf_size v => (0 <? v)%Z
  | max_leaf_depth _ => true
  end.

(** PT/internal/kd_tree_builder.hpp:120-138: bounds_t holds two points of the
    space's dimension.  Fitting the root box reads sdim coordinates of both
    (lines 497-511, box.hpp:86-95); fewer coordinates would be read out of
    range. *)
Definition bounds_dim (sp : space T) (bnds : start_bounds T) : bool :=
  match bnds with
  | bounds_from_space => true
  | bounds_user mn mx => (length mn =? sp_sdim sp)%nat && (length mx =? sp_sdim sp)%nat
  end.

(** PT/internal/kd_tree_builder.hpp:471-494 (build_kd_tree) as called by the
    constructor, PT/kd_tree.hpp:76-88.  The index vector and the leaf ranges
    must be representable in the index type (lines 361-362, 485-486). *)
Definition build (c : category) (alg : std_algos) (it : index_type) (fuel : nat)
    (sp : space T) (stop : stop_condition) (bnds : start_bounds T) (ru : rule)
  : res (kd_tree_data c T) :=
  do _ <- guard (stop_assert stop) UbAssert;
  do _ <- guard (0 <? sp_size sp)%nat UbAssert;
  do _ <- guard (Z.of_nat (sp_size sp) <=? it_max it)%Z UbOverflow;
  do _ <- guard (bounds_dim sp bnds) UbDim;
  let indices := seq 0 (sp_size sp) in
  let root_box := box_from_bounds sp bnds in
  do (root, indices', _) <-
    create_node c alg ru it stop sp fuel 0 0 indices root_box;
  Ok (KdTreeData indices' root_box root).

(** PT/internal/kd_tree_data.hpp:60-64, 76-87: leaf_ranges.  A node that is not
    a non-empty leaf is treated as a branch: for an empty leaf the recursive
    calls receive null pointers. *)
Fixpoint insert_leaf_range {B} (indices : list nat) (n : node B)
    (ranges : list (list nat)) : res (list (list nat)) :=
  match n with
  | Leaf b e =>
      if (b =? e)%nat then Ub UbNull
      else do r <- slice indices b e; Ok (ranges ++ [r])
  | Branch _ l r =>
      do ranges' <- insert_leaf_range indices l ranges;
      insert_leaf_range indices r ranges'
  end.
Definition leaf_ranges {c} (t : kd_tree_data c T) : res (list (list nat)) :=
  insert_leaf_range (kd_indices t) (kd_root t) [].

End Model.
