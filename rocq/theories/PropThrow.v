(** Properties of constructions that throw (C145-C147): memory that runs out while a
    tree is built or loaded, and streams with exceptions enabled. *)
From Coq Require Import List ZArith Bool Arith Permutation Lia.
From Verif Require Import Base ModelBox ModelBuild ModelSearch ModelSerial ModelMemory ModelHeap ModelThrow Spec SpecHeap SpecThrow SpecSerial
  Instances BuildThms SerialThms Examples HeapTop HeapEx ThrowTop ThrowEx.
Import ListNotations.
Local Open Scope nat_scope.

(** ** C145: a construction that throws leaves nothing behind *)
Theorem C145_throws_clean :
  forall (T : Type) (S : Scalar T) (alg : std_algos) (little : bool) (it : index_type) (tc : codec T) (m : metric T)
    (mp : moved_parts T) (fuel : nat), std_in_place alg ->
  forall (ops : list (tree_op T * faults)) (w : world m) (l : list (option (answer T) * bool)) (op : tree_op T) (ft : faults),
  try_run alg little it tc m mp fuel (tree_start m) ops = Ok (w, l) ->
  (exists w', try_step alg little it tc m mp fuel w op ft = Ok (w', None, true) /\ unharmed w w' /\ ~ faultless ft)
  \/ try_step alg little it tc m mp fuel w op ft
     = (do (w', a) <- tree_step alg little it tc m mp fuel w op; Ok (w', a, false)).
Proof. exact @throws_clean. Qed.
Print Assumptions C145_throws_clean.

Theorem C145_answers :
  forall (T : Type) (S : Scalar T) (alg : std_algos) (little : bool) (it : index_type) (tc : codec T) (m : metric T)
    (mp : moved_parts T) (fuel : nat), std_in_place alg ->
  forall (ops : list (tree_op T * faults)) (w : world m) (l : list (option (answer T) * bool)),
  try_run alg little it tc m mp fuel (tree_start m) ops = Ok (w, l) -> no_moved_query empty_scope (kept ops l) ->
  exists st, value_run alg little it tc m fuel (no_objects m) (kept ops l) = Ok (st, kept_answers l).
Proof. exact @throws_transparent. Qed.
Print Assumptions C145_answers.

Theorem C145_all_freed :
  forall (T : Type) (S : Scalar T) (alg : std_algos) (little : bool) (it : index_type) (tc : codec T) (m : metric T)
    (mp : moved_parts T) (fuel : nat), std_in_place alg ->
  forall (ops : list (tree_op T * faults)) (w : world m) (l : list (option (answer T) * bool)),
  try_run alg little it tc m mp fuel (tree_start m) ops = Ok (w, l) -> no_tree_overwritten empty_scope (kept ops l) ->
  (forall x, w_obj w x = None) -> h_live (w_heap w) = [].
Proof. exact @throws_frees. Qed.
Print Assumptions C145_all_freed.

(** Four constructions throw, at four different places. *)
Example C145_example : std_in_place std_example
  /\ told (ex_try ex_attempts)
     = Ok [(None, false); (None, true); (Some (ANeighbor (Neighbor 2 2%Z)), false); (None, true); (None, true); (None, false);
           (None, true); (Some (ANeighbor (Neighbor 1 1%Z)), false); (Some (ANeighbor (Neighbor 2 2%Z)), false)]
  /\ in_use (ex_try ex_attempts) = Ok 3
  /\ exists w l, ex_try (ex_attempts ++ ex_over) = Ok (w, l)
       /\ no_moved_query empty_scope (kept (ex_attempts ++ ex_over) l)
       /\ no_tree_overwritten empty_scope (kept (ex_attempts ++ ex_over) l)
       /\ (forall x, w_obj w x = None) /\ h_live (w_heap w) = [].
Proof.
  split; [exact std_example_in_place|]. split; [vm_compute; reflexivity|]. split; [vm_compute; reflexivity|].
  eexists _, _. split; [vm_compute; reflexivity|]. split; [cbn; repeat split; discriminate|].
  split; [cbn; repeat split; first [left; discriminate|right; reflexivity]|]. split; [|reflexivity].
  intros x. do 2 (destruct x; [reflexivity|]). reflexivity.
Qed.

(** ** C146: how much memory has to be there *)
Theorem C146_memory_needed :
  forall (T : Type) (S : Scalar T) (alg : std_algos) (little : bool) (it : index_type) (tc : codec T) (m : metric T)
    (mp : moved_parts T) (fuel : nat), std_in_place alg ->
  forall (ops : list (tree_op T * faults)) (w : world m) (l : list (option (answer T) * bool))
    (x : nat) (sp : space T) (stop : stop_condition) (bnds : start_bounds T) (ru : rule) (d : kd_tree_data (m_cat m) T) (n : nat),
  try_run alg little it tc m mp fuel (tree_start m) ops = Ok (w, l) -> w_obj w x = None ->
  build (m_cat m) alg it fuel sp stop bnds ru = Ok d ->
  exists w' t,
    try_step alg little it tc m mp fuel w (TBuild x sp stop bnds ru) (memory_for (h_next (w_heap w)) n) = Ok (w', None, t)
    /\ (t = true <-> n < chunks_needed (node_count (kd_root d))).
Proof. exact @memory_needed. Qed.
Print Assumptions C146_memory_needed.

(** A tree of 399 nodes needs two chunks of 256: one is not enough. *)
Example C146_example :
  (exists d, @build Z Z32 Euclidean std_example it_int 500 ex_line (max_leaf_size 1) bounds_from_space sliding_midpoint_max_side = Ok d
     /\ node_count (kd_root d) = 399 /\ chunks_needed (node_count (kd_root d)) = 2)
  /\ told (ex_try [(ex_build 1 ex_line 1, memory_for 0 1)]) = Ok [(None, true)]
  /\ told (ex_try [(ex_build 1 ex_line 1, memory_for 0 2)]) = Ok [(None, false)].
Proof.
  split; [|split; vm_compute; reflexivity]. eexists. split; [vm_compute; reflexivity|]. split; vm_compute; reflexivity.
Qed.

(** ** C147: streams with exceptions enabled *)
Theorem C147_stream_throws :
  forall (T : Type) (S : Scalar T) (alg : std_algos) (little : bool) (it : index_type) (tc : codec T) (m : metric T)
    (mp : moved_parts T) (fuel : nat), std_in_place alg -> decodes tc ->
  forall (ops : list (tree_op T * faults)) (w : world m) (l : list (option (answer T) * bool)) (x : nat) (sp : space T) (bytes : list Z),
  try_run alg little it tc m mp fuel (tree_start m) ops = Ok (w, l) -> w_obj w x = None ->
  match load_data little it tc (m_cat m) (Some bytes) with
  | Ok (d, _) => exists w', try_step alg little it tc m mp fuel w (TLoad x sp bytes) throwing_stream = Ok (w', None, false)
      /\ tree_step alg little it tc m mp fuel w (TLoad x sp bytes) = Ok (w', None)
  | Ub UbShortRead => exists w', try_step alg little it tc m mp fuel w (TLoad x sp bytes) throwing_stream = Ok (w', None, true)
      /\ unharmed w w'
  | Ub u => try_step alg little it tc m mp fuel w (TLoad x sp bytes) throwing_stream = Ub u
  | OutOfFuel => try_step alg little it tc m mp fuel w (TLoad x sp bytes) throwing_stream = OutOfFuel
  end.
Proof. exact @stream_throws. Qed.
Print Assumptions C147_stream_throws.

Theorem C147_truncated_load_throws :
  forall (T : Type) (SC : Scalar T) (little : bool) (it : index_type) (tc : codec T) (fit : T -> Prop)
    (sp : space T) (alg : std_algos) (pads : nat -> nat -> Z) (m : metric T) (fuel : nat)
    (stop : stop_condition) (bnds : start_bounds T) (ru : rule) (tree : kd_tree T) (p lost : list Z)
    (mp : moved_parts T) (ops : list (tree_op T * faults)) (w : world m) (l : list (option (answer T) * bool)) (x : nat) (sp' : space T),
  (0 < it_bits it <= 64)%Z -> (it_bits it mod 8 = 0)%Z -> codec_ok tc fit -> decodes tc ->
  ord_laws SC fit -> wf_space sp -> all_coords fit sp -> std_laws alg -> std_in_place alg ->
  (ru = midpoint_max_side -> mid_ok SC fit) -> bounds_coords fit sp bnds ->
  (Z.of_nat (sp_sdim sp) < 2 ^ 31)%Z -> (Z.of_nat (length (sp_pts sp)) <= it_max it)%Z ->
  kd_tree_make alg it m fuel sp stop bnds ru = Ok tree ->
  p ++ lost = kd_tree_save little it tc pads tree -> lost <> [] ->
  try_run alg little it tc m mp fuel (tree_start m) ops = Ok (w, l) -> w_obj w x = None ->
  exists w', try_step alg little it tc m mp fuel w (TLoad x sp' p) throwing_stream = Ok (w', None, true) /\ unharmed w w'.
Proof. exact @truncated_throws. Qed.
Print Assumptions C147_truncated_load_throws.

(** A file is loaded as a whole, cut in the nodes, cut in the indices and empty;
    afterwards the first tree answers, and nothing but it is in memory. *)
Example C147_example : decodes ex_codec /\ std_in_place std_example
  /\ let ops := [(TLoad 0 ex_int ex_saved, throwing_stream); (TLoad 1 ex_int (firstn 134 ex_saved), throwing_stream);
      (TLoad 1 ex_int (firstn 22 ex_saved), throwing_stream); (TLoad 1 ex_int [], throwing_stream); (ex_near 0 [6; 1]%Z, no_fault)] in
     told (ex_try ops) = Ok [(None, false); (None, true); (None, true); (None, true); (Some (ANeighbor (Neighbor 2 2%Z)), false)]
     /\ in_use (ex_try ops) = Ok 1.
Proof. split; [exact ex_decodes|]. split; [exact std_example_in_place|]. split; vm_compute; reflexivity. Qed.
