(** Model of the lifetimes of the objects of the Python module: which object
    keeps which other one alive, which memory belongs to which object, and what
    is read through pointers that keep nothing alive.

    Citations are relative to /repo.  [PT] abbreviates src/pico_tree/pico_tree and
    [PY] src/pyco_tree/pico_tree/_pyco_tree. *)
From Coq Require Import List Bool Arith.
From Verif Require Import Base.
Import ListNotations.
Local Open Scope nat_scope.

(** The base of an ndarray: NULL, the object None, or another ndarray. *)
Inductive array_base : Type := BaseNull | BaseNone | BaseArray (a : nat).

(** A std::vector of PY/darray.hpp:88: its block of memory (none as long as the
    capacity is zero), size and capacity. *)
Record vec : Type := Vec { v_block : option nat; v_size : nat; v_cap : nat }.

(** The objects: what is stored besides references.
    - an ndarray: data pointer, OWNDATA, base
    - a KdTree: the data pointer of its py_array_map (PY/py_array_map.hpp:25-28);
      its own nodes and indices are not part of this model (see ModelMemory.v)
    - a DArray: its vectors
    - an iterator of a DArray (PY/darray.hpp:183-184, two of them): pointer to the
      DArray, index and end.  Simplification: the pointer to the darray_impl
      stands for the DArray, whose impl_ is never replaced (PY/darray.hpp:213-216
      is only called by constructors)
    - a memoryview of a KdTree: data pointer of the tree (PY/kd_tree.hpp:292-315) *)
Inductive kind : Type :=
| KArray (data : nat) (owns : bool) (base : array_base)
| KTree (data : nat)
| KDArray (vectors : list vec)
| KIter (darray index end_ : nat)
| KBuffer (data : nat).

(** [o_refs]: the objects it keeps alive: the base of an ndarray, the exporter of
    a memoryview, the patients of py::keep_alive. *)
Record object : Type := Obj { o_kind : kind; o_refs : list nat }.

(** Objects that were deleted are None, blocks that were freed are false.  The
    program's own references (variables, elements of lists, ...) are [h_vars].
    Simplification: numbers of objects and blocks are not reused. *)
Record pyheap : Type := PyHeap { h_objs : list (option object); h_blocks : list bool; h_vars : list nat }.

(** The state when the module has been imported. *)
Definition no_objects : pyheap := PyHeap [] [] [].

(** Replacing an element of a list (plumbing). *)
Fixpoint set_nth {A} (l : list A) (i : nat) (x : A) : list A :=
  match l, i with
  | [], _ => []
  | _ :: r, O => x :: r
  | y :: r, S i' => y :: set_nth r i' x
  end.

(** The object behind a reference of the program. *)
Definition get (h : pyheap) (o : nat) : option object :=
  if existsb (Nat.eqb o) (h_vars h) then nth o (h_objs h) None else None.

(** operator new, malloc: a block that was not there before. *)
Definition alloc (bs : list bool) : list bool * nat := (bs ++ [true], length bs).
(** operator delete, free. *)
Definition free (bs : list bool) (b : nat) : res (list bool) :=
  do _ <- guard (nth b bs false) UbDoubleFree;
  Ok (set_nth bs b false).
Fixpoint free_all (bs : list bool) (l : list nat) : res (list bool) :=
  match l with
  | [] => Ok bs
  | b :: r => do bs' <- free bs b; free_all bs' r
  end.
(** Reading or writing through a pointer into a block. *)
Definition use (bs : list bool) (b : nat) : res unit := guard (nth b bs false) UbDangling.

(** A new object, referred to by the program. *)
Definition add (h : pyheap) (bs : list bool) (o : object) : pyheap :=
  PyHeap (h_objs h ++ [Some o]) bs (length (h_objs h) :: h_vars h).

(** The blocks of vectors. *)
Definition vec_blocks (vs : list vec) : list nat :=
  flat_map (fun v => match v_block v with Some b => [b] | None => [] end) vs.

(** The blocks that are freed together with an object. *)
Definition owned (o : object) : list nat :=
  match o_kind o with
  | KArray b true _ => [b]
  | KDArray vs => vec_blocks vs
  | _ => []
  end.

(** PT/internal/search_visitor.hpp:134-137, 142 (n_.clear, push_back),
    PT/kd_tree.hpp:298 (idxs.clear): [size] results are stored in a vector.  The
    memory is used again if they fit; otherwise there is a new block with room
    for [slack] further elements. *)
Definition fill (bs : list bool) (v : vec) (size slack : nat) : res (list bool * vec) :=
  if size <=? v_cap v then Ok (bs, Vec (v_block v) size (v_cap v))
  else
    do bs1 <- match v_block v with Some b => free bs b | None => Ok bs end;
    let (bs2, b) := alloc bs1 in
    Ok (bs2, Vec (Some b) size (size + slack)).
Fixpoint fill_all (bs : list bool) (vs : list vec) (results : list (nat * nat)) : res (list bool * list vec) :=
  match results with
  | [] => Ok (bs, [])
  | (size, slack) :: rs =>
      do (bs1, v) <- fill bs (hd (Vec None 0 0) vs) size slack;
      do (bs2, vs') <- fill_all bs1 (tl vs) rs;
      Ok (bs2, v :: vs')
  end.
(** PY/kd_tree.hpp:188-199, 221-232, 257-267: the vector of vectors is resized to
    the number of queries; vectors that are moved keep their blocks.  Then each
    query fills its vector. *)
Definition refill (bs : list bool) (vs : list vec) (results : list (nat * nat)) : res (list bool * list vec) :=
  do bs1 <- free_all bs (vec_blocks (skipn (length results) vs));
  fill_all bs1 (firstn (length results) vs) results.

(** PY/darray.hpp:64-75: copies of vectors. *)
Fixpoint copy_all (bs : list bool) (vs : list vec) : res (list bool * list vec) :=
  match vs with
  | [] => Ok (bs, [])
  | v :: r =>
      do _ <- match v_block v with Some b => use bs b | None => Ok tt end;
      let (bs1, b) := match v_size v with O => (bs, None) | S _ => (fst (alloc bs), Some (snd (alloc bs))) end in
      do (bs2, r') <- copy_all bs1 r;
      Ok (bs2, Vec b (v_size v) (v_size v) :: r')
  end.

(** PY/darray.hpp:39-62: a vector as an ndarray; NumPy allocates memory of its own
    when the pointer is null. *)
Definition vec_array (bs : list bool) (v : vec) (refs : list nat) : list bool * object :=
  match v_block v with
  | Some b => (bs, Obj (KArray b false BaseNone) refs)
  | None => (fst (alloc bs), Obj (KArray (snd (alloc bs)) true BaseNone) refs)
  end.

(** Whether anything refers to an object. *)
Definition referenced (h : pyheap) (o : nat) : bool :=
  existsb (Nat.eqb o) (h_vars h)
  || existsb (fun x => match x with Some ob => existsb (Nat.eqb o) (o_refs ob) | None => false end) (h_objs h).

(** Forgetting one reference. *)
Fixpoint remove_one (o : nat) (l : list nat) : list nat :=
  match l with
  | [] => []
  | x :: r => if x =? o then r else x :: remove_one o r
  end.

(** What a Python program can do.
    - [NewArray]: any function of NumPy that makes an array with its own memory
    - [ViewArray a]: a[1:], a.T, a.view(), ...
    - [MakeTree a]: KdTree(a, metric, max_leaf_size), PY/def_kd_tree.cpp:21-31
    - [NewDArray]: DArray(dtype), PY/def_darray.cpp:19-27
    - [LoadTree a]: load_kd_tree(a, filename), PY/def_kd_tree.cpp:182-188
    - [SearchKnn t q], [SearchKnnInto t q nns fits]: search_knn, with an array of
      another size when [fits] is false, PY/def_kd_tree.cpp:59-110
    - [SearchDArray t q results], [SearchDArrayInto t q d results]: search_radius
      and search_box, PY/def_kd_tree.cpp:111-180; the number of results of each
      query and, in case, the unused capacity
    - [GetItem d i], [SliceDArray d is], [IterDArray d]: d[i], d[a:b:c], iter(d),
      PY/def_darray.cpp:28-60.  Negative i and slices: see ModelPython.v
    - [Next it]: next(it)
    - [ReadArray x], [Memoryview t], [ReadBuffer m]: x[0], memoryview(t), m[0, 0]
    - [Hold o], [Drop o]: one reference more or less, e.g. y = o, del y
    - [Collect o]: CPython deletes an object when nothing refers to it any more.
      It does so at once; here at any later time, or never. *)
Inductive op : Type :=
| NewArray
| ViewArray (a : nat)
| MakeTree (a : nat)
| LoadTree (a : nat)
| NewDArray
| SearchKnn (t q : nat)
| SearchKnnInto (t q nns : nat) (fits : bool)
| SearchDArray (t q : nat) (results : list (nat * nat))
| SearchDArrayInto (t q d : nat) (results : list (nat * nat))
| GetItem (d i : nat)
| SliceDArray (d : nat) (is_ : list nat)
| IterDArray (d : nat)
| Next (it : nat)
| ReadArray (x : nat)
| Memoryview (t : nat)
| ReadBuffer (m : nat)
| Hold (o : nat)
| Drop (o : nat)
| Collect (o : nat).

(** One operation.  Operations on objects the program has no reference to, or of
    another type, raise an exception and change nothing; so does the end of an
    iterator. *)
Definition step (h : pyheap) (p : op) : res pyheap :=
  let bs := h_blocks h in
  match p with
  | NewArray => let (bs1, b) := alloc bs in Ok (add h bs1 (Obj (KArray b true BaseNull) []))
  | ViewArray a =>
      (* NumPy's PyArray_SetBaseObject: a view of a view refers to what this refers to *)
      match get h a with
      | Some (Obj (KArray b _ base) _) =>
          let y := match base with BaseArray y => y | _ => a end in
          Ok (add h bs (Obj (KArray b false (BaseArray y)) [y]))
      | _ => Ok h
      end
  | MakeTree a =>
      (* PY/def_kd_tree.cpp:22-25: py::keep_alive<1, 2> *)
      match get h a with
      | Some (Obj (KArray b _ _) _) =>
          do _ <- use bs b;
          Ok (add h bs (Obj (KTree b) [a]))
      | _ => Ok h
      end
  | LoadTree a =>
      (* PY/def_kd_tree.cpp:182-188: no py::keep_alive *)
      match get h a with
      | Some (Obj (KArray b _ _) _) => Ok (add h bs (Obj (KTree b) []))
      | _ => Ok h
      end
  | NewDArray => Ok (add h bs (Obj (KDArray []) []))
  | SearchKnn t q =>
      match get h t, get h q with
      | Some (Obj (KTree b) _), Some (Obj (KArray bq _ _) _) =>
          do _ <- use bs b;
          do _ <- use bs bq;
          let (bs1, b1) := alloc bs in
          Ok (add h bs1 (Obj (KArray b1 true BaseNull) []))
      | _, _ => Ok h
      end
  | SearchKnnInto t q nns fits =>
      match get h t, get h q, get h nns with
      | Some (Obj (KTree b) _), Some (Obj (KArray bq _ _) _), Some (Obj (KArray bo owns base) refs) =>
          if q =? nns then Ok h  (* PY/kd_tree.hpp:120-121: an array has one dtype *)
          else if fits then
            do _ <- use bs b;
            do _ <- use bs bq;
            do _ <- use bs bo;
            Ok h
          else
            (* PY/kd_tree.hpp:362-378 and NumPy's PyArray_Resize: realloc *)
            match owns, base with
            | true, BaseNull =>
                do bs1 <- free bs bo;
                let (bs2, b2) := alloc bs1 in
                do _ <- use bs2 b;
                do _ <- use bs2 bq;
                Ok (PyHeap (set_nth (h_objs h) nns (Some (Obj (KArray b2 true BaseNull) refs))) bs2 (h_vars h))
            | _, _ => Ok h
            end
      | _, _, _ => Ok h
      end
  | SearchDArray t q results =>
      match get h t, get h q with
      | Some (Obj (KTree b) _), Some (Obj (KArray bq _ _) _) =>
          do _ <- use bs b;
          do _ <- use bs bq;
          do (bs1, vs) <- refill bs [] results;
          Ok (add h bs1 (Obj (KDArray vs) []))
      | _, _ => Ok h
      end
  | SearchDArrayInto t q d results =>
      match get h t, get h q, get h d with
      | Some (Obj (KTree b) _), Some (Obj (KArray bq _ _) _), Some (Obj (KDArray vs) refs) =>
          do (bs1, vs1) <- refill bs vs results;
          do _ <- use bs1 b;
          do _ <- use bs1 bq;
          Ok (PyHeap (set_nth (h_objs h) d (Some (Obj (KDArray vs1) refs))) bs1 (h_vars h))
      | _, _, _ => Ok h
      end
  | GetItem d i =>
      (* PY/def_darray.cpp:33-47: py::keep_alive<0, 1> *)
      match get h d with
      | Some (Obj (KDArray vs) _) =>
          match nth_error vs i with
          | Some v => let (bs1, o) := vec_array bs v [d] in Ok (add h bs1 o)
          | None => Ok h
          end
      | _ => Ok h
      end
  | SliceDArray d is_ =>
      match get h d with
      | Some (Obj (KDArray vs) _) =>
          do (bs1, vs1) <- copy_all bs (flat_map (fun i => match nth_error vs i with Some v => [v] | None => [] end) is_);
          Ok (add h bs1 (Obj (KDArray vs1) []))
      | _ => Ok h
      end
  | IterDArray d =>
      (* PY/def_darray.cpp:28-32: py::keep_alive<0, 1> *)
      match get h d with
      | Some (Obj (KDArray vs) _) => Ok (add h bs (Obj (KIter d 0 (length vs)) [d]))
      | _ => Ok h
      end
  | Next it =>
      (* PY/darray.hpp:141-144: operator*; nothing is kept alive *)
      match get h it with
      | Some (Obj (KIter d i e) refs) =>
          if i =? e then Ok h
          else
            match nth d (h_objs h) None with
            | Some (Obj (KDArray vs) _) =>
                match nth_error vs i with
                | Some v =>
                    let (bs1, o) := vec_array bs v [] in
                    let h1 := PyHeap (set_nth (h_objs h) it (Some (Obj (KIter d (S i) e) refs))) bs (h_vars h) in
                    Ok (add h1 bs1 o)
                | None => Ub UbIndex
                end
            | _ => Ub UbDangling
            end
      | _ => Ok h
      end
  | ReadArray x =>
      match get h x with
      | Some (Obj (KArray b _ _) _) => do _ <- use bs b; Ok h
      | _ => Ok h
      end
  | Memoryview t =>
      match get h t with
      | Some (Obj (KTree b) _) => Ok (add h bs (Obj (KBuffer b) [t]))
      | _ => Ok h
      end
  | ReadBuffer m =>
      match get h m with
      | Some (Obj (KBuffer b) _) => do _ <- use bs b; Ok h
      | _ => Ok h
      end
  | Hold o =>
      match get h o with
      | Some _ => Ok (PyHeap (h_objs h) bs (o :: h_vars h))
      | None => Ok h
      end
  | Drop o => Ok (PyHeap (h_objs h) bs (remove_one o (h_vars h)))
  | Collect o =>
      if referenced h o then Ok h
      else
        match nth o (h_objs h) None with
        | Some ob =>
            do bs1 <- free_all bs (owned ob);
            Ok (PyHeap (set_nth (h_objs h) o None) bs1 (h_vars h))
        | None => Ok h
        end
  end.

(** A program. *)
Fixpoint run (h : pyheap) (l : list op) : res pyheap :=
  match l with
  | [] => Ok h
  | p :: r => do h' <- step h p; run h' r
  end.
