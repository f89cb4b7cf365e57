(** Model of the memory that holds the nodes of the trees.

    Citations are relative to /repo.  [PT] abbreviates src/pico_tree/pico_tree. *)
From Coq Require Import List Bool Arith.
From Verif Require Import Base.
Import ListNotations.
Local Open Scope nat_scope.

(** The heap: the list_pool_resource nodes that were allocated and not freed
    yet, each with its [prev] pointer (PT/internal/memory.hpp:87-93), and the
    next address.  Simplification: addresses are never reused, so dangling
    pointers stay recognisable; the array [data] of a node is identified with
    the node. *)
Record heap : Type := Heap { h_live : list (nat * option nat); h_next : nat }.

(** The [prev] pointer of a live node. *)
Fixpoint find_node (l : list (nat * option nat)) (a : nat) : option (option nat) :=
  match l with
  | [] => None
  | (b, p) :: r => if a =? b then Some p else find_node r a
  end.

(** operator delete. *)
Definition remove_node (l : list (nat * option nat)) (a : nat) : list (nat * option nat) :=
  filter (fun n => negb (a =? fst n)) l.

(** A chunk_allocator: head_ of its list_pool_resource, object_index_ and chunk_
    (PT/internal/memory.hpp:82, 123-126).  [al_chunk = None] is the
    indeterminate pointer of a new allocator. *)
Record allocator : Type := Allocator { al_head : option nat; al_index : nat; al_chunk : option nat }.

(** A pointer to a tree node: the chunk and the position in it. *)
Definition ptr : Type := (nat * nat)%type.

Section Memory.
(** ChunkSize_ (256 for trees, PT/internal/kd_tree_data.hpp:39). *)
Variable chunk_size : nat.

(** PT/internal/memory.hpp:63-68: list_pool_resource::allocate. *)
Definition resource_allocate (h : heap) (head : option nat) : heap * nat :=
  (Heap ((h_next h, head) :: h_live h) (S (h_next h)), h_next h).

(** PT/internal/memory.hpp:71-79: list_pool_resource::release.  The loop is
    bounded by [fuel]; every iteration frees a node. *)
Fixpoint release (fuel : nat) (live : list (nat * option nat)) (head : option nat)
  : res (list (nat * option nat)) :=
  match head with
  | None => Ok live
  | Some a =>
      match fuel with
      | O => OutOfFuel
      | S fuel' =>
          match find_node live a with
          | None => Ub UbDoubleFree
          | Some prev => release fuel' (remove_node live a) prev
          end
      end
  end.

(** PT/internal/memory.hpp:37, 108: constructors. *)
Definition new_allocator : allocator := Allocator None chunk_size None.

(** PT/internal/memory.hpp:111-121: chunk_allocator::allocate. *)
Definition allocate (h : heap) (al : allocator) : res (heap * allocator * ptr) :=
  let (h1, al1) :=
    if al_index al =? chunk_size then
      let (h1, a) := resource_allocate h (al_head al) in
      (h1, Allocator (Some a) 0 (Some a))
    else (h, al) in
  match al_chunk al1 with
  | None => Ub UbUninit
  | Some c =>
      match find_node (h_live h1) c with
      | None => Ub UbDangling
      | Some _ =>
          do _ <- guard (al_index al1 <? chunk_size) UbIndex;
          Ok (h1, Allocator (al_head al1) (S (al_index al1)) (al_chunk al1), (c, al_index al1))
      end
  end.

(** PT/internal/memory.hpp:44-47 inside the implicit move constructor of
    chunk_allocator: the new and the old object afterwards.  object_index_ and
    chunk_ are copied. *)
Definition move_construct (src : allocator) : allocator * allocator :=
  (src, Allocator None (al_index src) (al_chunk src)).

(** PT/internal/memory.hpp:53-57 inside the implicit move assignment of
    chunk_allocator, for distinct objects: the target and the source
    afterwards.  What the target held before is not released. *)
Definition move_assign (dst src : allocator) : allocator * allocator :=
  (Allocator (al_head src) (al_index src) (al_chunk src), Allocator None (al_index src) (al_chunk src)).

(** The same, for an object assigned to itself. *)
Definition self_move_assign (x : allocator) : allocator := Allocator None (al_index x) (al_chunk x).

(** What a program can do with allocators named by numbers: construct one, ask
    it for an object, move-construct one from another, move-assign, destroy.
    Allocators are members of trees, so this is what it can do with trees
    (PT/kd_tree.hpp:95-101, PT/internal/kd_tree_data.hpp:60-64). *)
Inductive mem_op : Type :=
| OpNew (x : nat)
| OpAlloc (x : nat)
| OpMove (x y : nat)     (* auto x = std::move(y) *)
| OpAssign (x y : nat)   (* x = std::move(y) *)
| OpDestroy (x : nat).

(** The allocators in scope and the heap. *)
Record mem : Type := Mem { m_var : nat -> option allocator; m_heap : heap }.

(** Update of one name. *)
Definition set_var {A} (f : nat -> A) (x : nat) (v : A) : nat -> A :=
  fun z => if z =? x then v else f z.

(** One operation and the pointer it returns.  Operations that do not make
    sense (on names that do not exist, or that exist already) do nothing. *)
Definition mem_step (s : mem) (o : mem_op) : res (mem * option ptr) :=
  match o with
  | OpNew x =>
      match m_var s x with
      | None => Ok (Mem (set_var (m_var s) x (Some new_allocator)) (m_heap s), None)
      | Some _ => Ok (s, None)
      end
  | OpAlloc x =>
      match m_var s x with
      | Some al =>
          do (h, al', p) <- allocate (m_heap s) al;
          Ok (Mem (set_var (m_var s) x (Some al')) h, Some p)
      | None => Ok (s, None)
      end
  | OpMove x y =>
      match m_var s x, m_var s y with
      | None, Some src =>
          let (n, o) := move_construct src in
          Ok (Mem (set_var (set_var (m_var s) y (Some o)) x (Some n)) (m_heap s), None)
      | _, _ => Ok (s, None)
      end
  | OpAssign x y =>
      match m_var s x, m_var s y with
      | Some dst, Some src =>
          if x =? y then
            Ok (Mem (set_var (m_var s) x (Some (self_move_assign dst))) (m_heap s), None)
          else
            let (d, o) := move_assign dst src in
            Ok (Mem (set_var (set_var (m_var s) y (Some o)) x (Some d)) (m_heap s), None)
      | _, _ => Ok (s, None)
      end
  | OpDestroy x =>
      match m_var s x with
      | Some al =>
          do live <- release (length (h_live (m_heap s))) (h_live (m_heap s)) (al_head al);
          Ok (Mem (set_var (m_var s) x None) (Heap live (h_next (m_heap s))), None)
      | None => Ok (s, None)
      end
  end.

(** A history, from nothing: the final state and what each operation returned. *)
Fixpoint mem_run (s : mem) (ops : list mem_op) : res (mem * list (option ptr)) :=
  match ops with
  | [] => Ok (s, [])
  | o :: r =>
      do (s1, p) <- mem_step s o;
      do (s2, ps) <- mem_run s1 r;
      Ok (s2, p :: ps)
  end.
Definition mem_start : mem := Mem (fun _ => None) (Heap [] 0).
End Memory.
