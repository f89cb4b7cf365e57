(** C96 to C101: lifetimes of the objects of the Python module. *)
From Coq Require Import List Bool Arith Lia.
From Verif Require Import Base ModelLife SpecLife LifeThms LifeMore LifeEx.
Import ListNotations.
Local Open Scope nat_scope.

(** ** C96: no memory is used after it was freed, none is freed twice *)
Theorem C96_no_use_after_free :
  forall ops : list op,
  careful_run no_objects ops -> (forall p, In p ops -> ~ unkept p) ->
  exists h, run no_objects ops = Ok h.
Proof. exact (fun ops C U => run_safe ops C (no_unkept ops U no_objects)). Qed.
Print Assumptions C96_no_use_after_free.

Theorem C96_new_outputs :
  forall ops : list op,
  (forall p, In p ops -> ~ into p) -> (forall p, In p ops -> ~ unkept p) ->
  exists h, run no_objects ops = Ok h.
Proof. exact (fun ops I U => run_safe ops (no_into ops I no_objects) (no_unkept ops U no_objects)). Qed.
Print Assumptions C96_new_outputs.

Theorem C96_no_double_free :
  forall ops : list op, run no_objects ops <> Ub UbDoubleFree.
Proof. exact no_double_free. Qed.
Print Assumptions C96_no_double_free.

Example C96_hypotheses : careful_run no_objects ex_program /\ (forall p, In p ex_program -> ~ unkept p)
  /\ (forall p, In p ex_index -> ~ into p) /\ (forall p, In p ex_index -> ~ unkept p).
Proof.
  split; [exact ex_careful|]. split; [exact ex_no_unkept|].
  split; intros p Hp; cbn in Hp; repeat (destruct Hp as [<-|Hp]; [cbn; tauto|]); destruct Hp.
Qed.
Example C96_program : exists h, run no_objects ex_program = Ok h
  /\ h_blocks h = [true; true; true; false; true; true] /\ h_vars h = [6; 5; 4; 1].
Proof. exact ex_runs. Qed.

(** ** C97: loaded trees *)
Theorem C97_load_refuted :
  ~ forall ops : list op,
    (forall p, In p ops -> ~ into p) -> (forall it, ~ In (Next it) ops) ->
    exists h, run no_objects ops = Ok h.
Proof. exact load_refuted. Qed.
Print Assumptions C97_load_refuted.

Theorem C97_load_kept :
  forall ops : list op,
  careful_run no_objects ops -> (forall it, ~ In (Next it) ops) ->
  (forall pre a post, ops = pre ++ LoadTree a :: post -> ~ In (Drop a) post) ->
  exists h, run no_objects ops = Ok h.
Proof. exact (fun ops C N L => run_safe ops C (loads_kept ops N L no_objects)). Qed.
Print Assumptions C97_load_kept.

Example C97_witness : run no_objects [NewArray; NewArray; LoadTree 0; Drop 0; Collect 0; SearchKnn 2 1] = Ub UbDangling
  /\ exists h, run no_objects [NewArray; NewArray; MakeTree 0; Drop 0; Collect 0; SearchKnn 2 1] = Ok h.
Proof. split; [reflexivity|]. eexists. reflexivity. Qed.
Example C97_hypotheses : careful_run no_objects ex_load_kept /\ (forall it, ~ In (Next it) ex_load_kept)
  /\ (forall pre a post, ex_load_kept = pre ++ LoadTree a :: post -> ~ In (Drop a) post).
Proof. exact ex_load_hyps. Qed.

(** ** C98: iterating over a DArray *)
Theorem C98_iterate_refuted :
  ~ forall ops : list op,
    (forall p, In p ops -> ~ into p) -> (forall a, ~ In (LoadTree a) ops) ->
    exists h, run no_objects ops = Ok h.
Proof. exact iterate_refuted. Qed.
Print Assumptions C98_iterate_refuted.

Theorem C98_iterate_kept :
  forall ops : list op,
  careful_run no_objects ops -> kept_run no_objects ops ->
  exists h, run no_objects ops = Ok h.
Proof. exact run_safe. Qed.
Print Assumptions C98_iterate_kept.

Example C98_witness : run no_objects ex_iterate = Ub UbDangling /\ exists h, run no_objects ex_index = Ok h.
Proof. split; [exact ex_iterate_dangles|exact ex_index_runs]. Qed.
Example C98_hypotheses : careful_run no_objects ex_iterate_kept /\ kept_run no_objects ex_iterate_kept
  /\ exists h, run no_objects ex_iterate_kept = Ok h /\ length (h_objs h) = 7.
Proof. split; [exact (proj1 ex_iterate_hyps)|]. split; [exact (proj2 ex_iterate_hyps)|exact ex_iterate_kept_runs]. Qed.

(** ** C99: using an output again *)
Theorem C99_refill_refuted :
  ~ forall ops : list op,
    (forall p, In p ops -> ~ unkept p) -> (forall t q nns, ~ In (SearchKnnInto t q nns false) ops) ->
    exists h, run no_objects ops = Ok h.
Proof. exact refill_refuted. Qed.
Print Assumptions C99_refill_refuted.

Theorem C99_resize_refuted :
  ~ forall ops : list op,
    (forall p, In p ops -> ~ unkept p) -> (forall t q d results, ~ In (SearchDArrayInto t q d results) ops) ->
    exists h, run no_objects ops = Ok h.
Proof. exact resize_refuted. Qed.
Print Assumptions C99_resize_refuted.

Theorem C99_shrink_refuted :
  ~ forall ops : list op,
    (forall a, ~ In (LoadTree a) ops) -> kept_run no_objects ops ->
    run no_objects ops <> Ub UbIndex.
Proof. exact shrink_refuted. Qed.
Print Assumptions C99_shrink_refuted.

Theorem C99_refill_in_place :
  forall (h h' : pyheap) (t q d : nat) (results : list (nat * nat)) (vs : list vec) (refs : list nat),
  get h d = Some (Obj (KDArray vs) refs) -> length results = length vs -> results_fit vs results ->
  step h (SearchDArrayInto t q d results) = Ok h' -> h_blocks h' = h_blocks h.
Proof. exact (fun h h' t q d results vs refs => refill_in_place h t q d results vs refs h'). Qed.
Print Assumptions C99_refill_in_place.

Example C99_witnesses : run no_objects ex_refill = Ub UbDangling /\ run no_objects ex_resize = Ub UbDangling
  /\ run no_objects ex_shrink = Ub UbIndex.
Proof. split; [exact ex_refill_dangles|]. split; [exact ex_resize_dangles|exact ex_shrink_index]. Qed.
Example C99_hypotheses : get ex_state 3 = Some (Obj (KDArray [Vec (Some 2) 2 3; Vec (Some 3) 1 1]) [])
  /\ results_fit [Vec (Some 2) 2 3; Vec (Some 3) 1 1] [(3, 0); (0, 0)]
  /\ exists h, step ex_state (SearchDArrayInto 2 1 3 [(3, 0); (0, 0)]) = Ok h
    /\ get h 3 = Some (Obj (KDArray [Vec (Some 2) 3 3; Vec (Some 3) 0 1]) []).
Proof. split; [exact ex_state_darray|]. split; [exact ex_state_fits|exact ex_state_refill]. Qed.

(** ** C100: nothing leaks *)
Theorem C100_everything_is_freed :
  forall (ops : list op) (h : pyheap),
  run no_objects ops = Ok h ->
  exists h', run h (end_of_program h) = Ok h'
    /\ (forall x, nth x (h_objs h') None = None) /\ (forall b, nth b (h_blocks h') false = false).
Proof. exact run_no_leak. Qed.
Print Assumptions C100_everything_is_freed.

Theorem C100_one_owner :
  forall (ops : list op) (h : pyheap) (b : nat),
  run no_objects ops = Ok h -> nth b (h_blocks h) false = true ->
  exists x o, nth x (h_objs h) None = Some o /\ In b (owned o)
    /\ forall x' o', nth x' (h_objs h) None = Some o' -> In b (owned o') -> x' = x.
Proof. exact memory_has_owner. Qed.
Print Assumptions C100_one_owner.

Example C100_hypotheses :
  run no_objects [NewArray; NewArray; MakeTree 0; SearchDArray 2 1 [(2, 1); (1, 0)]; GetItem 3 0] = Ok ex_state
  /\ exists h, run ex_state (end_of_program ex_state) = Ok h
  /\ h_objs h = [None; None; None; None; None] /\ h_blocks h = [false; false; false; false]
  /\ h_blocks ex_state = [true; true; true; true].
Proof. split; [exact ex_state_ok|exact ex_state_end]. Qed.

(** ** C101: what is shared and what is copied *)
Theorem C101_tree_shares_points :
  forall (h : pyheap) (a b : nat) (ow : bool) (base : array_base) (refs : list nat),
  get h a = Some (Obj (KArray b ow base) refs) -> nth b (h_blocks h) false = true ->
  (exists h' o, step h (MakeTree a) = Ok h' /\ get h' (length (h_objs h)) = Some o /\ data_of o = Some b)
  /\ (exists h' o, step h (LoadTree a) = Ok h' /\ get h' (length (h_objs h)) = Some o /\ data_of o = Some b).
Proof. exact tree_shares. Qed.
Print Assumptions C101_tree_shares_points.

Theorem C101_item_is_view :
  forall (h : pyheap) (d : nat) (vs : list vec) (refs : list nat) (i : nat) (v : vec),
  get h d = Some (Obj (KDArray vs) refs) -> nth_error vs i = Some v ->
  exists h' o, step h (GetItem d i) = Ok h' /\ get h' (length (h_objs h)) = Some o
    /\ (forall b, v_block v = Some b -> data_of o = Some b).
Proof. exact item_shares. Qed.
Print Assumptions C101_item_is_view.

Theorem C101_next_is_view :
  forall (h : pyheap) (it d i e : nat) (refs : list nat) (vs : list vec) (refs' : list nat) (v : vec),
  get h it = Some (Obj (KIter d i e) refs) -> i <> e ->
  nth d (h_objs h) None = Some (Obj (KDArray vs) refs') -> nth_error vs i = Some v ->
  exists h' o, step h (Next it) = Ok h' /\ get h' (length (h_objs h)) = Some o
    /\ get h' it = Some (Obj (KIter d (S i) e) refs)
    /\ (forall b, v_block v = Some b -> data_of o = Some b).
Proof. exact next_shares. Qed.
Print Assumptions C101_next_is_view.

Theorem C101_slice_is_copy :
  forall (ops : list op) (h : pyheap) (d : nat) (vs : list vec) (refs is_ : list nat),
  run no_objects ops = Ok h -> get h d = Some (Obj (KDArray vs) refs) ->
  (forall i, In i is_ -> i < length vs) ->
  exists h' vs', step h (SliceDArray d is_) = Ok h' /\ get h' (length (h_objs h)) = Some (Obj (KDArray vs') [])
    /\ map v_size vs' = map (fun i => nth i (map v_size vs) 0) is_
    /\ forall x o b, nth x (h_objs h) None = Some o -> In b (owned o) -> ~ In b (vec_blocks vs').
Proof. exact slice_copies. Qed.
Print Assumptions C101_slice_is_copy.

Theorem C101_knn_result_is_independent :
  forall (ops : list op) (h : pyheap) (t q bt : nat) (rt : list nat) (bq : nat) (ow : bool) (base : array_base) (rq : list nat),
  run no_objects ops = Ok h ->
  get h t = Some (Obj (KTree bt) rt) -> get h q = Some (Obj (KArray bq ow base) rq) ->
  nth bt (h_blocks h) false = true -> nth bq (h_blocks h) false = true ->
  exists h' o b, step h (SearchKnn t q) = Ok h' /\ get h' (length (h_objs h)) = Some o /\ data_of o = Some b
    /\ nth b (h_blocks h') false = true /\ nth b (h_blocks h) false = false
    /\ forall rest h'', run h' rest = Ok h'' -> get h'' (length (h_objs h)) = Some o -> nth b (h_blocks h'') false = true.
Proof. exact knn_fresh. Qed.
Print Assumptions C101_knn_result_is_independent.

Example C101_hypotheses :
  run no_objects [NewArray; NewArray; MakeTree 0; SearchDArray 2 1 [(2, 1); (1, 0)]; GetItem 3 0] = Ok ex_state
  /\ get ex_state 0 = Some (Obj (KArray 0 true BaseNull) []) /\ get ex_state 2 = Some (Obj (KTree 0) [0])
  /\ get ex_state 1 = Some (Obj (KArray 1 true BaseNull) []) /\ h_blocks ex_state = [true; true; true; true]
  /\ get ex_state 3 = Some (Obj (KDArray [Vec (Some 2) 2 3; Vec (Some 3) 1 1]) [])
  /\ (forall i, In i [1; 0; 1] -> i < length [Vec (Some 2) 2 3; Vec (Some 3) 1 1]).
Proof.
  repeat (split; [reflexivity|]). cbn. intros i H. repeat (destruct H as [<-|H]; [lia|]). destruct H.
Qed.
Example C101_next_hypotheses : exists h refs vs v,
  run no_objects [NewArray; NewArray; MakeTree 0; SearchDArray 2 1 [(2, 0); (1, 0)]; IterDArray 3; Next 4] = Ok h
  /\ get h 4 = Some (Obj (KIter 3 1 2) refs) /\ nth 3 (h_objs h) None = Some (Obj (KDArray vs) [])
  /\ nth_error vs 1 = Some v /\ v_block v = Some 3.
Proof. do 4 eexists. split; [vm_compute; reflexivity|]. repeat split. Qed.

(** The results of a query lie in memory the vector has: no element is outside the
    block, and there is a block unless there is no room at all. *)
Theorem C101_results_have_room :
  forall (ops : list op) (h : pyheap) (d : nat) (vs : list vec) (refs : list nat) (i : nat) (v : vec),
  run no_objects ops = Ok h -> nth d (h_objs h) None = Some (Obj (KDArray vs) refs) -> nth_error vs i = Some v ->
  v_size v <= v_cap v /\ (v_block v = None <-> v_cap v = 0).
Proof. exact vectors_fit. Qed.
Print Assumptions C101_results_have_room.

Example C101_room_hypotheses :
  run no_objects [NewArray; NewArray; MakeTree 0; SearchDArray 2 1 [(2, 1); (1, 0)]; GetItem 3 0] = Ok ex_state
  /\ nth 3 (h_objs ex_state) None = Some (Obj (KDArray [Vec (Some 2) 2 3; Vec (Some 3) 1 1]) [])
  /\ nth_error [Vec (Some 2) 2 3; Vec (Some 3) 1 1] 0 = Some (Vec (Some 2) 2 3).
Proof. repeat split. Qed.
