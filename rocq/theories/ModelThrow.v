(** Model of constructing and loading trees when memory runs out or a stream
    throws: the point at which the exception is thrown, the partly built tree
    that is left, and the destructors that run while the stack is unwound.

    Citations are relative to /repo.  [PT] abbreviates src/pico_tree/pico_tree. *)
From Coq Require Import List ZArith Bool Arith.
From Verif Require Import Base ModelBox ModelBuild ModelSearch ModelSerial ModelMemory ModelHeap.
Import ListNotations.

(** What goes wrong during one construction.  [ft_vector k]: the k-th of the
    allocations by vectors outside of the recursion throws; [ft_chunk a]: the
    new expression for a chunk (PT/internal/memory.hpp:64) throws when [a] is the
    address that would come next; [ft_copy depth b e]: the copy of the box
    (PT/internal/kd_tree_builder.hpp:379) throws for the node with that depth and
    that range; [ft_stream]: the caller enabled the exceptions of the stream for
    failbit, so that a read that comes up short throws. *)
Record faults : Type := Faults {
  ft_vector : nat -> bool;
  ft_chunk : nat -> bool;
  ft_copy : nat -> nat -> nat -> bool;
  ft_stream : bool
}.

(** A result, or the state at the time an exception was thrown.  Not code. *)
Inductive outcome (A S : Type) : Type :=
| Done (a : A)
| Thrown (s : S).
Arguments Done {A S} _.
Arguments Thrown {A S} _.

(** The code after a call that may throw runs only if it did not.  Not code. *)
Definition then_ {A B S} (r : res (outcome A S)) (f : A -> res (outcome B S)) : res (outcome B S) :=
  match r with
  | Ok (Done a) => f a
  | Ok (Thrown s) => Ok (Thrown s)
  | Ub u => Ub u
  | OutOfFuel => OutOfFuel
  end.

(** A step that does not throw.  Not code. *)
Definition calm {A S} (r : res A) : res (outcome A S) := do a <- r; Ok (Done a).

Section ThrowModel.
Context {T : Type} {SC : Scalar T}.
Variable c : category.
Variable ft : faults.
Local Notation B := (branch_data c T).
Local Notation bstate := (bstate T c).

(** PT/internal/memory.hpp:63-68, 111-121: allocate() of the allocator.  The new
    expression comes first: when it throws, head_, chunk_ and object_index_ are
    as they were. *)
Definition b_allocate_t (s : bstate) : res (outcome (bstate * ptr) bstate) :=
  if (al_index (b_alloc s) =? node_chunk)%nat && ft_chunk ft (h_next (b_heap s))
  then Ok (Thrown s)
  else calm (b_allocate c s).

(** PT/internal/kd_tree_builder.hpp:351-396: create_node.  Exceptions of the
    allocator and of the copy of the box pass through; the nodes made so far stay
    with the allocator.  Copies of boxes only throw for dimensions that are known
    at run time (PT/internal/box.hpp:180-181). *)
Fixpoint create_node_t (alg : std_algos) (ru : rule) (it : index_type)
    (stop : stop_condition) (sp : space T)
    (fuel depth b e : nat) (bx : box T) (s : bstate) : res (outcome (bstate * ptr * box T) bstate) :=
  match fuel with
  | O => OutOfFuel
  | Datatypes.S fuel' =>
      then_ (b_allocate_t s) (fun '(s0, p) =>
      do seg <- slice (b_indices s0) b e;
      if is_leaf it stop depth (e - b) then
        do s1 <- b_store c s0 p (set_leaf b e);
        do _ <- guard (forallb (in_space sp) seg) UbIndex;
        let bx' :=
          match ru with
          | midpoint_max_side => if (b <? e)%nat then compute_bounding_box sp seg else bx
          | _ => compute_bounding_box sp seg
          end in
        Ok (Done (s1, p, bx'))
      else
        do (l, r, d, v) <- splitter alg ru sp seg bx;
        let split := (b + length l)%nat in
        let s1 := BState (b_heap s0) (b_cells s0) (b_alloc s0) (overwrite (b_indices s0) b (l ++ r)) in
        if ft_copy ft depth b e then Ok (Thrown s1) else
        let left_box := box_set_max bx d v in
        let right_box := box_set_min bx d v in
        then_ (create_node_t alg ru it stop sp fuel' (depth + 1)%nat b split left_box s1) (fun '(s2, pl, lb) =>
        do s3 <- b_store c s2 p (set_left pl);
        then_ (create_node_t alg ru it stop sp fuel' (depth + 1)%nat split e right_box s3) (fun '(s4, pr, rb) =>
        do s5 <- b_store c s4 p (set_right pr);
        do s6 <- b_store c s5 p (set_data (set_branch c lb rb d));
        Ok (Done (s6, p, box_fit_box lb rb)))))
  end.

(** PT/internal/memory.hpp:60: ~list_pool_resource() of a local or member
    allocator while the stack is unwound.  The memory afterwards. *)
Definition unwind (s : bstate) : res (heap * cells B) :=
  do live <- release (length (h_live (b_heap s))) (h_live (b_heap s)) (al_head (b_alloc s));
  Ok (Heap live (h_next (b_heap s)), b_cells s).

(** PT/internal/kd_tree_builder.hpp:471-494 and PT/kd_tree.hpp:76-88: the
    constructor of a tree.  Vectors are allocated for the indices (0), the root
    box (1), its copy (2, PT/internal/kd_tree_builder.hpp:346) and its copy in
    the result (3), which is made while the nodes still belong to the local
    allocator.  After an exception there is no tree object; the members
    constructed before and the local objects are destroyed. *)
Definition build_t (alg : std_algos) (it : index_type) (fuel : nat)
    (sp : space T) (stop : stop_condition) (bnds : start_bounds T) (ru : rule)
    (h : heap) (m : cells B) : res (heap * cells B * option (tree_obj T)) :=
  do _ <- guard (stop_assert stop) UbAssert;
  do _ <- guard (0 <? sp_size sp)%nat UbAssert;
  do _ <- guard (Z.of_nat (sp_size sp) <=? it_max it)%Z UbOverflow;
  if ft_vector ft 0 then Ok (h, m, None) else
  let indices := seq 0 (sp_size sp) in
  do _ <- guard (bounds_dim sp bnds) UbDim;
  if ft_vector ft 1 then Ok (h, m, None) else
  let root_box := box_from_bounds sp bnds in
  let s0 := BState h m (new_allocator node_chunk) indices in
  do o <- (if ft_vector ft 2 then Ok (Thrown s0)
           else create_node_t alg ru it stop sp fuel 0 0 (length indices) root_box s0);
  match o with
  | Thrown s => do (h', m') <- unwind s; Ok (h', m', None)
  | Done (s, p, _) =>
      if ft_vector ft 3 then do (h', m') <- unwind s; Ok (h', m', None) else
      let (al, old) := move_construct (b_alloc s) in
      do live <- release (length (h_live (b_heap s))) (h_live (b_heap s)) (al_head old);
      Ok (Heap live (h_next (b_heap s)), b_cells s, Some (TreeObj sp (b_indices s) root_box al (CPtr p)))
  end.

(** std::istream::read with exceptions enabled: a value, or an array. *)
Definition read_bytes_t {St} (n : nat) (st : stream) (s : St) : res (outcome (list Z * stream) St) :=
  match read_bytes n st with
  | Ub UbShortRead => if ft_stream ft then Ok (Thrown s) else Ub UbShortRead
  | r => calm r
  end.
Definition read_array_t {A St} (cd : codec A) (n : nat) (init : A) (st : stream) (s : St)
  : res (outcome (list A * stream) St) :=
  match read_array cd n init st with
  | Ok (_, None) as r => if ft_stream ft then Ok (Thrown s) else calm r
  | r => calm r
  end.

(** PT/internal/kd_tree_data.hpp:90-106: read_node. *)
Fixpoint read_node_t (little : bool) (it : index_type) (tc : codec T)
    (fuel : nat) (st : stream) (s : bstate) : res (outcome (bstate * ptr * stream) bstate) :=
  match fuel with
  | O => OutOfFuel
  | Datatypes.S fuel' =>
      then_ (b_allocate_t s) (fun '(s0, p) =>
      then_ (read_bytes_t 1 st s0) (fun '(b, st1) =>
      do leaf <- bool_dec b;
      if leaf : bool then
        then_ (read_bytes_t (layout_size (leaf_layout little it)) st1 s0) (fun '(lb, st2) =>
        do be <- leaf_value little it lb;
        do s1 <- b_store c s0 p (set_leaf (fst be) (snd be));
        Ok (Done (s1, p, st2)))
      else
        then_ (read_bytes_t (layout_size (branch_layout little tc c)) st1 s0) (fun '(bb, st2) =>
        do br <- branch_value little tc c bb;
        do s1 <- b_store c s0 p (set_data br);
        then_ (read_node_t little it tc fuel' st2 s1) (fun '(s2, pl, st3) =>
        do s3 <- b_store c s2 p (set_left pl);
        then_ (read_node_t little it tc fuel' st3 s3) (fun '(s4, pr, st4) =>
        do s5 <- b_store c s4 p (set_right pr);
        Ok (Done (s5, p, st4)))))))
  end.

(** PT/kd_tree.hpp:350-353, 375-378 and PT/internal/kd_tree_data.hpp:43-52,
    122-128: load(space, stream).  Vectors are allocated for the root box (0) and
    the indices (1).  The allocator is a member of the local object kd_tree_data,
    whose destructor runs after an exception. *)
Definition load_t (little : bool) (it : index_type) (tc : codec T) (sp : space T) (bytes : list Z)
    (h : heap) (m : cells B) : res (heap * cells B * option (tree_obj T * stream)) :=
  let start := BState h m (new_allocator node_chunk) [] in
  do o <-
    then_ (read_bytes_t (c_size (size_codec little)) (Some bytes) start) (fun '(b, s1) =>
    do sdim <- c_dec (size_codec little) b;
    if ft_vector ft 0 then Ok (Thrown start) else
    then_ (read_bytes_t (c_size (size_codec little)) s1 start) (fun '(b2, s2) =>
    do size <- c_dec (size_codec little) b2;
    if ft_vector ft 1 then Ok (Thrown start) else
    then_ (read_array_t (index_codec little it) size 0%nat s2 start) (fun '(indices, s3) =>
    then_ (read_array_t tc sdim s_zero s3 start) (fun '(mn, s4) =>
    then_ (read_array_t tc sdim s_zero s4 start) (fun '(mx, s5) =>
    then_ (read_node_t little it tc (Datatypes.S (match s5 with Some b => length b | None => 0 end)) s5
             (BState h m (new_allocator node_chunk) indices)) (fun '(s, p, s6) =>
    Ok (Done (s, TreeObj sp (b_indices s) (Box mn mx) (b_alloc s) (CPtr p), s6))))))));
  match o with
  | Thrown s => do (h', m') <- unwind s; Ok (h', m', None)
  | Done (s, o, s6) => Ok (b_heap s, b_cells s, Some (o, s6))
  end.
End ThrowModel.

Section Programs.
Context {T : Type} {SC : Scalar T}.
Variables (alg : std_algos) (little : bool) (it : index_type) (tc : codec T) (m : metric T).
Variables (mp : moved_parts T) (fuel : nat).
Local Notation c := (m_cat m).

(** One step of a program that catches exceptions of constructors: the state,
    the answer of a query and whether an exception was caught.  Moves,
    destructors and queries: see [tree_step].  Simplification: exceptions thrown
    by queries (their results are vectors, visitors are the caller's) are left
    out; queries do not modify trees. *)
Definition try_step (w : world m) (op : tree_op T) (ft : faults) : res (world m * option (answer T) * bool) :=
  match op with
  | TBuild x sp stop bnds ru =>
      match w_obj w x with
      | Some _ => Ok (w, None, false)
      | None =>
          do (h, mem, o) <- build_t c ft alg it fuel sp stop bnds ru (w_heap w) (w_cells w);
          match o with
          | Some t => Ok (World (set_var (w_obj w) x (Some t)) h mem, None, false)
          | None => Ok (World (w_obj w) h mem, None, true)
          end
      end
  | TLoad x sp bytes =>
      match w_obj w x with
      | Some _ => Ok (w, None, false)
      | None =>
          do (h, mem, o) <- load_t c ft little it tc sp bytes (w_heap w) (w_cells w);
          match o with
          | Some (t, _) => Ok (World (set_var (w_obj w) x (Some t)) h mem, None, false)
          | None => Ok (World (w_obj w) h mem, None, true)
          end
      end
  | _ => do (w', a) <- tree_step alg little it tc m mp fuel w op; Ok (w', a, false)
  end.

(** A program: the final state, the answers and the exceptions. *)
Fixpoint try_run (w : world m) (ops : list (tree_op T * faults)) : res (world m * list (option (answer T) * bool)) :=
  match ops with
  | [] => Ok (w, [])
  | (op, ft) :: r =>
      do (w1, a, t) <- try_step w op ft;
      do (w2, l) <- try_run w1 r;
      Ok (w2, (a, t) :: l)
  end.
End Programs.
