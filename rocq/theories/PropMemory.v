(** C35, C36: the memory of the nodes. *)
From Coq Require Import List Bool Arith Lia.
From Verif Require Import Base ModelMemory SpecMemory MemoryThms.
Import ListNotations.
Local Open Scope nat_scope.

(** C35.  In any history of allocators that are constructed, used, moved,
    assigned and destroyed - except that nothing is allocated from one whose
    content was moved away - all goes well, no two objects of the allocators in
    existence are the same, and all of them lie in memory still allocated. *)
Theorem C35_objects_distinct_and_live :
  forall (chunk_size : nat) (ops : list mem_op), 0 < chunk_size ->
  no_moved_use (fun _ => None) ops ->
  exists s returned, mem_run chunk_size mem_start ops = Ok (s, returned)
    /\ no_alias (pool_run no_pools ops returned)
    /\ (forall x pl p, pool_run no_pools ops returned x = Some pl -> In p (p_objs pl) ->
          valid_ptr chunk_size (m_heap s) p).
Proof. intros chunk_size ops CS K. exact (history_ok chunk_size CS ops K). Qed.
Print Assumptions C35_objects_distinct_and_live.

(** Chunks of two objects: three objects, a move, a fourth object from the new
    owner, a second allocator, an assignment. *)
Example C35_ex :
  let ops := [OpNew 0; OpAlloc 0; OpAlloc 0; OpAlloc 0; OpMove 1 0; OpAlloc 1; OpNew 2; OpAlloc 2;
              OpDestroy 0; OpAlloc 1; OpAssign 1 2; OpAlloc 1] in
  no_moved_use (fun _ => None) ops
  /\ match mem_run 2 mem_start ops with
     | Ok (s, rs) => rs = [None; Some (0, 0); Some (0, 1); Some (1, 0); None; Some (1, 1); None; Some (2, 0);
                           None; Some (3, 0); None; Some (2, 1)] /\ map fst (h_live (m_heap s)) = [3; 2; 1; 0]
     | _ => False
     end
  /\ (forall rs, rs = [None; Some (0, 0); Some (0, 1); Some (1, 0); None; Some (1, 1); None; Some (2, 0);
                 None; Some (3, 0); None; Some (2, 1)] ->
        pool_run no_pools ops rs 1 = Some (Pool [(2, 1); (2, 0)] false)).
Proof.
  cbv zeta. split; [vm_compute; repeat split; discriminate|]. split.
  - vm_compute. split; reflexivity.
  - intros rs ->. vm_compute. reflexivity.
Qed.

(** The exception matters: a moved-from allocator still points into the chunk it
    gave away.  Using it hands out an object that belongs to the new owner, or
    uses freed memory once the new owner is gone. *)
Theorem C35_moved_from_refuted :
  forall chunk_size, 1 < chunk_size ->
  (exists s rs, let ops := [OpNew 0; OpAlloc 0; OpMove 1 0; OpAlloc 1; OpAlloc 0] in
     mem_run chunk_size mem_start ops = Ok (s, rs) /\ ~ no_alias (pool_run no_pools ops rs))
  /\ mem_run chunk_size mem_start [OpNew 0; OpAlloc 0; OpMove 1 0; OpDestroy 1; OpAlloc 0] = Ub UbDangling.
Proof. exact moved_from_bad. Qed.
Print Assumptions C35_moved_from_refuted.

(** C36, first part: no history whatsoever frees a chunk twice, and every
    destructor returns. *)
Theorem C36_no_double_free :
  forall (chunk_size : nat) (ops : list mem_op), 0 < chunk_size ->
  mem_run chunk_size mem_start ops <> Ub UbDoubleFree /\ mem_run chunk_size mem_start ops <> OutOfFuel.
Proof. intros chunk_size ops CS. exact (history_free chunk_size CS ops). Qed.
Print Assumptions C36_no_double_free.

(** C36, second part: as long as nothing is assigned to an allocator (tree) that
    holds objects, nothing is left over when all are destroyed. *)
Theorem C36_all_freed :
  forall (chunk_size : nat) (ops : list mem_op) (s : mem) (returned : list (option ptr)),
  0 < chunk_size -> no_overwrite (fun _ => None) ops ->
  mem_run chunk_size mem_start ops = Ok (s, returned) -> (forall x, m_var s x = None) ->
  h_live (m_heap s) = [].
Proof. intros chunk_size ops s rs CS K H N. exact (history_no_leak chunk_size CS ops s rs K H N). Qed.
Print Assumptions C36_all_freed.

Example C36_all_freed_ex :
  let ops := [OpNew 0; OpAlloc 0; OpAlloc 0; OpAlloc 0; OpMove 1 0; OpAssign 0 1; OpAlloc 0; OpDestroy 1; OpDestroy 0] in
  no_overwrite (fun _ => None) ops
  /\ match mem_run 2 mem_start ops with
     | Ok (s, _) => m_var s 0 = None /\ m_var s 1 = None /\ h_next (m_heap s) = 2 /\ h_live (m_heap s) = []
     | _ => False
     end.
Proof.
  cbv zeta. split.
  - vm_compute. repeat split. right. right. split; [discriminate|reflexivity].
  - vm_compute. repeat split.
Qed.

(** C36 in general is false: [x = std::move(y)], for any x that owns an object
    and any y (x itself, too), leaks the chunk of that object.  It is still
    allocated at the end, whatever happens afterwards. *)
Theorem C36_move_assign_refuted :
  forall (chunk_size : nat) (ops1 : list mem_op) (x y : nat) (ops2 : list mem_op)
         (s : mem) (rs : list (option ptr)) (s1 : mem) (rs1 : list (option ptr)) (pl : pool) (p : ptr) (py : pool),
  0 < chunk_size ->
  no_moved_use (fun _ => None) ops1 -> mem_run chunk_size mem_start ops1 = Ok (s1, rs1) ->
  pool_run no_pools ops1 rs1 x = Some pl -> pool_run no_pools ops1 rs1 y = Some py -> In p (p_objs pl) ->
  mem_run chunk_size mem_start (ops1 ++ OpAssign x y :: ops2) = Ok (s, rs) ->
  In (fst p) (map fst (h_live (m_heap s))).
Proof.
  intros chunk_size ops1 x y ops2 s rs s1 rs1 pl p py CS K E1 EX EY HP H.
  exact (assign_leaks chunk_size CS ops1 x y ops2 s rs s1 rs1 pl p py K E1 EX EY HP H).
Qed.
Print Assumptions C36_move_assign_refuted.

(** [tree = kd_tree(...)], then both trees go out of scope. *)
Example C36_move_assign_ex :
  match mem_run 256 mem_start
    ([OpNew 0; OpAlloc 0; OpNew 1; OpAlloc 1] ++ OpAssign 0 1 :: [OpDestroy 1; OpDestroy 0]) with
  | Ok (s, _) => h_live (m_heap s) = [(0, None)] /\ m_var s 0 = None /\ m_var s 1 = None
  | _ => False
  end.
Proof. vm_compute. repeat split. Qed.
