(** Properties of the code with its pointers (C110-C114): trees as nodes in chunks
    of memory, and programs that build, load, move, assign, destroy and query them. *)
From Coq Require Import List ZArith QArith Bool Arith Permutation Sorted Lia.
From Verif Require Import Base ModelBox ModelBuild ModelSearch ModelSerial ModelMemory ModelHeap Spec SpecHeap
  Instances BuildThms Examples HeapTop HeapEnd HeapEx.
Import ListNotations.
Local Open Scope nat_scope.

(** ** C110: the answers of a program with tree objects *)
Theorem C110_pointers_transparent :
  forall (T : Type) (S : Scalar T) (alg : std_algos) (little : bool) (it : index_type) (tc : codec T) (m : metric T)
    (mp : moved_parts T) (fuel : nat), std_in_place alg ->
  forall ops : list (tree_op T), no_moved_query empty_scope ops ->
  (do x <- tree_run alg little it tc m mp fuel (tree_start m) ops; Ok (snd x))
  = (do x <- value_run alg little it tc m fuel (no_objects m) ops; Ok (snd x)).
Proof. exact @program_transparent. Qed.
Print Assumptions C110_pointers_transparent.

Example C110_example : std_in_place std_example /\ no_moved_query empty_scope ex_prog
  /\ told (ex_run emptied ex_prog)
     = Ok [None; None; None; Some (ANeighbor (Neighbor 2 2%Z)); None; Some (ANeighbor (Neighbor 2 2%Z)); None;
           Some (ANeighbor (Neighbor 0 5%Z)); None; None;
           Some (ANeighbors [Neighbor 0 6%Z; Neighbor 1 9%Z]); Some (AIndices [3; 4; 2])]
  /\ told (ex_run copied ex_prog) = told (ex_values ex_prog).
Proof.
  split; [exact std_example_in_place|]. split; [cbn; repeat split; discriminate|]. split; vm_compute; reflexivity.
Qed.

(** ** C111: all memory is given back *)
Theorem C111_all_freed :
  forall (T : Type) (S : Scalar T) (alg : std_algos) (little : bool) (it : index_type) (tc : codec T) (m : metric T)
    (mp : moved_parts T) (fuel : nat), std_in_place alg ->
  forall (ops : list (tree_op T)) (w : world m) (l : list (option (answer T))),
  no_tree_overwritten empty_scope ops ->
  tree_run alg little it tc m mp fuel (tree_start m) ops = Ok (w, l) ->
  (forall x, w_obj w x = None) -> h_live (w_heap w) = [].
Proof. exact @program_frees. Qed.
Print Assumptions C111_all_freed.

Example C111_example : no_tree_overwritten empty_scope (ex_prog ++ ex_ends)
  /\ exists w l, ex_run emptied (ex_prog ++ ex_ends) = Ok (w, l) /\ (forall x, w_obj w x = None)
  /\ h_live (w_heap w) = [].
Proof.
  split; [cbn; repeat split; first [left; discriminate|right; reflexivity]|].
  eexists _, _. split; [vm_compute; reflexivity|]. split; [|reflexivity].
  intros x. do 4 (destruct x; [reflexivity|]). reflexivity.
Qed.

(** Without the hypothesis: assigning to an object that holds a tree loses memory. *)
Example C111_leak : in_use (ex_run emptied
    [ex_build 0 ex_int 2; ex_build 1 ex_other 2; TAssign 1 0; TDestroy 1; TDestroy 0]) = Ok 1.
Proof. vm_compute. reflexivity. Qed.

(** ** C112: the memory in use *)
Theorem C112_memory_in_use :
  forall (T : Type) (S : Scalar T) (alg : std_algos) (little : bool) (it : index_type) (tc : codec T) (m : metric T)
    (mp : moved_parts T) (fuel : nat), std_in_place alg ->
  forall (ops : list (tree_op T)) (st : holdings m) (l : list (option (answer T))) (xs : list nat),
  no_moved_query empty_scope ops -> no_tree_overwritten empty_scope ops ->
  value_run alg little it tc m fuel (no_objects m) ops = Ok (st, l) ->
  NoDup xs -> (forall x, st x <> None -> In x xs) ->
  exists w, tree_run alg little it tc m mp fuel (tree_start m) ops = Ok (w, l)
    /\ length (h_live (w_heap w))
       = list_sum (map (fun x => match st x with
                                 | Some (Some (_, d)) => chunks_needed (node_count (kd_root d))
                                 | _ => 0
                                 end) xs).
Proof. exact @program_memory. Qed.
Print Assumptions C112_memory_in_use.

(** A tree of 399 nodes needs two chunks; the two that are left of [ex_prog] one each. *)
Example C112_example : let ops := ex_prog ++ [ex_build 1 ex_line 1] in
  no_moved_query empty_scope ops /\ no_tree_overwritten empty_scope ops
  /\ (exists st l, ex_values ops = Ok (st, l) /\ NoDup [0; 1; 3] /\ (forall x, st x <> None -> In x [0; 1; 3])
       /\ map (fun x => match st x with Some (Some (_, d)) => node_count (kd_root d) | _ => 0 end) [0; 1; 3] = [5; 399; 7])
  /\ in_use (ex_run emptied ops) = Ok 4.
Proof.
  cbv zeta. split; [cbn; repeat split; discriminate|].
  split; [cbn; repeat split; first [left; discriminate|right; reflexivity]|]. split; [|vm_compute; reflexivity].
  eexists _, _. split; [vm_compute; reflexivity|]. split; [repeat constructor; cbn; intuition discriminate|].
  split; [|reflexivity]. intros x Hx.
  do 4 (destruct x; [first [exfalso; apply Hx; reflexivity|cbn; auto]|]). exfalso. apply Hx. reflexivity.
Qed.

(** ** C113: querying an object that was moved from *)
Theorem C113_moved_from_refuted :
  ~ (forall (T : Type) (S : Scalar T) (alg : std_algos) (little : bool) (it : index_type) (tc : codec T) (m : metric T)
       (mp : moved_parts T) (fuel : nat), std_in_place alg ->
     forall (x y : nat) (sp : space T) (stop : stop_condition) (bnds : start_bounds T) (ru : rule) (q : query T) (a : answer T) w,
     tree_run alg little it tc m mp fuel (tree_start m) [TBuild y sp stop bnds ru; TQuery y q] = Ok (w, [None; Some a]) ->
     exists w' l, tree_run alg little it tc m mp fuel (tree_start m) [TBuild y sp stop bnds ru; TMove x y; TQuery y q] = Ok (w', l))
  /\ ~ (forall (T : Type) (S : Scalar T) (alg : std_algos) (little : bool) (it : index_type) (tc : codec T) (m : metric T)
       (fuel : nat), std_in_place alg ->
     forall (x y : nat) (sp : space T) (stop : stop_condition) (bnds : start_bounds T) (ru : rule) (q : query T) (a : answer T) w,
     tree_run alg little it tc m copied fuel (tree_start m) [TBuild y sp stop bnds ru; TMove x y; TQuery y q] = Ok (w, [None; None; Some a]) ->
     exists w' l, tree_run alg little it tc m copied fuel (tree_start m) [TBuild y sp stop bnds ru; TMove x y; TDestroy x; TQuery y q] = Ok (w', l)).
Proof. exact moved_from_refuted. Qed.
Print Assumptions C113_moved_from_refuted.

Example C113_example :
  told (ex_run emptied [ex_build 0 ex_int 2; ex_near 0 [6; 1]%Z]) = Ok [None; Some (ANeighbor (Neighbor 2 2%Z))]
  /\ ex_run emptied [ex_build 0 ex_int 2; TMove 1 0; ex_near 0 [6; 1]%Z] = Ub UbIndex
  /\ told (ex_run copied [ex_build 0 ex_int 2; TMove 1 0; ex_near 0 [6; 1]%Z]) = Ok [None; None; Some (ANeighbor (Neighbor 2 2%Z))]
  /\ ex_run copied [ex_build 0 ex_int 2; TMove 1 0; TDestroy 1; ex_near 0 [6; 1]%Z] = Ub UbDangling.
Proof. repeat split; vm_compute; reflexivity. Qed.

(** ** C114: from pointers to correct answers *)
Theorem C114_end_to_end :
  forall (T : Type) (S : Scalar T) (val : T -> Q), exact_laws S val ->
  forall (em : exact_metric) (alg : std_algos), std_laws alg -> std_in_place alg ->
  forall (little : bool) (it : index_type) (tc : codec T) (mp : moved_parts T) (fuel : nat)
    (ops : list (tree_op T)) (w : world (metric_of em)) (l : list (option (answer T))) (x : nat) (sp : space T) (q : list T),
  Forall no_load ops ->
  tree_run alg little it tc (metric_of em) mp fuel (tree_start (metric_of em)) ops = Ok (w, l) ->
  points_of ops x = Some (Some sp) ->
  (forall y stop bnds ru, In (TBuild y sp stop bnds ru) ops -> usable val em sp bnds q) ->
  let ask qu := tree_step alg little it tc (metric_of em) mp fuel w (TQuery x qu) in
  (forall nn0, distances_fit val em sp q ->
    exists i d, ask (QNn q nn0) = Ok (w, Some (ANeighbor (Neighbor i d)))
      /\ (val d == dist_to val em sp q i)%Q
      /\ is_nearest (npts sp) (dist_to val em sp q) i)
  /\ (forall k knn0, distances_fit val em sp q -> 0 < k ->
    exists out, ask (QKnn q k knn0) = Ok (w, Some (ANeighbors out))
      /\ knn_answer (npts sp) k (dist_to val em sp q) (answers val out))
  /\ (forall r sort,
    exists out, ask (QRadius q r sort) = Ok (w, Some (ANeighbors out))
      /\ filter_answer (npts sp) (fun i => (dist_to val em sp q i < val r)%Q) (dist_to val em sp q) (answers val out)
      /\ (sort = true -> StronglySorted Qle (map (fun x => val (n_distance x)) out))).
Proof. exact @end_to_end. Qed.
Print Assumptions C114_end_to_end.

(** Two trees are built; the first one is moved over the place of the second one
    after that was moved away, and asked. *)
Example C114_example : let ops := [ex_build 0 ex_int 2; ex_build 1 ex_other 1; TMove 2 1; TAssign 1 0; TDestroy 0] in
  @exact_laws Z Z32 inject_Z /\ std_laws std_example /\ std_in_place std_example /\ Forall no_load ops
  /\ points_of ops 1 = Some (Some ex_int) /\ points_of ops 2 = Some (Some ex_other)
  /\ (forall y stop bnds ru, In (TBuild y ex_int stop bnds ru) ops -> @usable Z Z32 inject_Z L1 ex_int bnds [6; 1]%Z)
  /\ @distances_fit Z Z32 inject_Z L1 ex_int [6; 1]%Z
  /\ told (ex_run emptied (ops ++ [ex_near 1 [6; 1]%Z])) = Ok [None; None; None; None; None; Some (ANeighbor (Neighbor 2 2%Z))].
Proof.
  cbv zeta. split; [exact Z32_exact|]. split; [exact std_example_laws|]. split; [exact std_example_in_place|].
  split; [repeat constructor|]. split; [reflexivity|]. split; [reflexivity|]. split; [|split; [|vm_compute; reflexivity]].
  - intros y stop bnds ru [H|[H|[H|[H|[H|[]]]]]]; try discriminate. injection H as _ _ <- _.
    constructor; try exact I; try reflexivity; [exact ex_int_wf| |].
    + repeat (constructor; [repeat (constructor; [split; vm_compute; discriminate|]); constructor|]); constructor.
    + repeat constructor.
  - intros i Hi. cbn in Hi. do 7 (destruct i; [vm_compute; reflexivity|]). lia.
Qed.
