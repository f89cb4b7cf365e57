(** Concrete programs using the Python module. *)
From Coq Require Import List Bool Arith Lia.
From Verif Require Import Base ModelLife SpecLife LifeThms.
Import ListNotations.
Local Open Scope nat_scope.

Ltac steps := repeat (cbn [careful_run kept_run]; split; [|intros ?h' ?E; vm_compute in E; injection E as <-]);
  try exact I.

(** The points, the queries, the tree; the points are dropped; searches; an
    element outlives its DArray, a memoryview its tree. *)
Definition ex_program : list op :=
  [ NewArray; NewArray; MakeTree 0; Drop 0; Collect 0; SearchDArray 2 1 [(3, 1); (0, 0)]; GetItem 3 0;
    SearchKnn 2 1; SearchKnnInto 2 1 5 false; ReadArray 4; SearchDArrayInto 2 1 3 [(4, 0); (0, 0); (2, 0)];
    Drop 3; Collect 3; ReadArray 4; Memoryview 2; Drop 2; Collect 2; ReadBuffer 6 ].
Lemma ex_careful : careful_run no_objects ex_program.
Proof.
  unfold ex_program. steps; cbn [careful].
  - intros b base refs G x o N H. vm_compute in G. injection G as <- <- <-.
    do 6 (destruct x as [|x]; [try (cbn in H; first [discriminate|injection H as <-; vm_compute; congruence]); congruence|]).
    destruct x; discriminate.
  - intros vs refs G. vm_compute in G. injection G as <- <-. left. split; [cbn; lia|].
    intros [|[|[|i]]] v r Hv Hr; cbn in Hv, Hr; try discriminate; injection Hv as <-; injection Hr as <-; cbn; lia.
    Unshelve. all: exact 0.
Qed.
Lemma ex_no_unkept : forall p, In p ex_program -> ~ unkept p.
Proof. intros p H. cbn in H. repeat (destruct H as [<-|H]; [cbn; tauto|]). destruct H. Qed.
Lemma ex_runs : exists h, run no_objects ex_program = Ok h
  /\ h_blocks h = [true; true; true; false; true; true] /\ h_vars h = [6; 5; 4; 1].
Proof. eexists. split; [vm_compute; reflexivity|]. split; reflexivity. Qed.

(** load_kd_tree, then the points are dropped. *)
Definition ex_load : list op := [NewArray; NewArray; LoadTree 0; Drop 0; Collect 0; SearchKnn 2 1].
Lemma ex_load_dangles : run no_objects ex_load = Ub UbDangling.
Proof. reflexivity. Qed.
Lemma load_refuted : ~ forall ops, (forall p, In p ops -> ~ into p) -> (forall it, ~ In (Next it) ops) ->
  exists h, run no_objects ops = Ok h.
Proof.
  intros H. destruct (H ex_load) as (h & E).
  - intros p Hp. cbn in Hp. repeat (destruct Hp as [<-|Hp]; [cbn; tauto|]). destruct Hp.
  - intros it Hp. cbn in Hp. repeat (destruct Hp as [Hp|Hp]; [discriminate|]). destruct Hp.
  - rewrite ex_load_dangles in E. discriminate.
Qed.
(** The same program, but the points are kept until the search is done. *)
Definition ex_load_kept : list op := [NewArray; NewArray; LoadTree 0; SearchKnn 2 1; Collect 0; SearchDArray 2 1 [(1, 0)]].
Lemma ex_load_hyps : careful_run no_objects ex_load_kept /\ (forall it, ~ In (Next it) ex_load_kept)
  /\ (forall pre a post, ex_load_kept = pre ++ LoadTree a :: post -> ~ In (Drop a) post).
Proof.
  split; [apply no_into; intros p Hp; cbn in Hp; repeat (destruct Hp as [<-|Hp]; [cbn; tauto|]); destruct Hp|]. split.
  - intros it Hp. cbn in Hp. repeat (destruct Hp as [Hp|Hp]; [discriminate|]). destruct Hp.
  - intros pre a post E H. assert (X : In (Drop a) ex_load_kept) by (rewrite E; apply in_or_app; simpl; auto).
    cbn in X. repeat (destruct X as [X|X]; [discriminate|]). destruct X.
Qed.
Lemma ex_load_kept_runs : exists h, run no_objects ex_load_kept = Ok h /\ length (h_objs h) = 5.
Proof. eexists. split; vm_compute; reflexivity. Qed.

(** x = next(iter(tree.search_radius(queries, r))): the DArray and the iterator are
    temporary objects. *)
Definition ex_iterate : list op :=
  [ NewArray; NewArray; MakeTree 0; SearchDArray 2 1 [(2, 0); (1, 0)]; IterDArray 3; Drop 3; Next 4; Drop 4;
    Collect 4; Collect 3; ReadArray 5 ].
Lemma ex_iterate_dangles : run no_objects ex_iterate = Ub UbDangling.
Proof. reflexivity. Qed.
Lemma iterate_refuted : ~ forall ops, (forall p, In p ops -> ~ into p) -> (forall a, ~ In (LoadTree a) ops) ->
  exists h, run no_objects ops = Ok h.
Proof.
  intros H. destruct (H ex_iterate) as (h & E).
  - intros p Hp. cbn in Hp. repeat (destruct Hp as [<-|Hp]; [cbn; tauto|]). destruct Hp.
  - intros it Hp. cbn in Hp. repeat (destruct Hp as [Hp|Hp]; [discriminate|]). destruct Hp.
  - rewrite ex_iterate_dangles in E. discriminate.
Qed.
(** Indexing instead of iterating. *)
Definition ex_index : list op :=
  [ NewArray; NewArray; MakeTree 0; SearchDArray 2 1 [(2, 0); (1, 0)]; GetItem 3 0; Drop 3; Collect 3; ReadArray 4 ].
Lemma ex_index_runs : exists h, run no_objects ex_index = Ok h.
Proof. eexists. reflexivity. Qed.
(** for x in d: x[0], with d held. *)
Definition ex_iterate_kept : list op :=
  [ NewArray; NewArray; MakeTree 0; SearchDArray 2 1 [(2, 0); (1, 0)]; IterDArray 3; Next 4; ReadArray 5; Next 4; ReadArray 6;
    Next 4; Drop 4; Collect 4; ReadArray 5; ReadArray 6 ].
Lemma ex_iterate_hyps : careful_run no_objects ex_iterate_kept /\ kept_run no_objects ex_iterate_kept.
Proof.
  split; [apply no_into; intros p Hp; cbn in Hp; repeat (destruct Hp as [<-|Hp]; [cbn; tauto|]); destruct Hp|].
  unfold ex_iterate_kept. steps; cbn [kept].
  all: intros d i e refs G; vm_compute in G; injection G as <- <- <- <-; split; [cbn; auto|].
  all: intros X; cbn in X; repeat (destruct X as [X|X]; [discriminate|]); destruct X.
Qed.
Lemma ex_iterate_kept_runs : exists h, run no_objects ex_iterate_kept = Ok h /\ length (h_objs h) = 7.
Proof. eexists. split; vm_compute; reflexivity. Qed.

(** x = d[0]; then the same DArray is given to a search with more results. *)
Definition ex_refill : list op :=
  [ NewArray; NewArray; MakeTree 0; SearchDArray 2 1 [(2, 0); (1, 0)]; GetItem 3 0;
    SearchDArrayInto 2 1 3 [(3, 0); (1, 0)]; ReadArray 4 ].
(** An iterator, and fewer queries the second time. *)
Definition ex_shrink : list op :=
  [ NewArray; NewArray; MakeTree 0; SearchDArray 2 1 [(2, 0); (1, 0)]; IterDArray 3;
    Next 4; SearchDArrayInto 2 1 3 [(1, 0)]; Next 4 ].
(** A view of the output array of search_knn; then it is resized. *)
Definition ex_resize : list op :=
  [ NewArray; NewArray; MakeTree 0; SearchKnn 2 1; ViewArray 3; SearchKnnInto 2 1 3 false; ReadArray 4 ].
Lemma ex_refill_dangles : run no_objects ex_refill = Ub UbDangling. Proof. reflexivity. Qed.
Lemma ex_shrink_index : run no_objects ex_shrink = Ub UbIndex. Proof. reflexivity. Qed.
Lemma ex_resize_dangles : run no_objects ex_resize = Ub UbDangling. Proof. reflexivity. Qed.
Lemma refill_refuted : ~ forall ops, (forall p, In p ops -> ~ unkept p) -> (forall t q nns, ~ In (SearchKnnInto t q nns false) ops) ->
  exists h, run no_objects ops = Ok h.
Proof.
  intros H. destruct (H ex_refill) as (h & E).
  - intros p Hp. cbn in Hp. repeat (destruct Hp as [<-|Hp]; [cbn; tauto|]). destruct Hp.
  - intros t q nns Hp. cbn in Hp. repeat (destruct Hp as [Hp|Hp]; [discriminate|]). destruct Hp.
  - rewrite ex_refill_dangles in E. discriminate.
Qed.
Lemma resize_refuted : ~ forall ops, (forall p, In p ops -> ~ unkept p) -> (forall t q d results, ~ In (SearchDArrayInto t q d results) ops) ->
  exists h, run no_objects ops = Ok h.
Proof.
  intros H. destruct (H ex_resize) as (h & E).
  - intros p Hp. cbn in Hp. repeat (destruct Hp as [<-|Hp]; [cbn; tauto|]). destruct Hp.
  - intros t q d results Hp. cbn in Hp. repeat (destruct Hp as [Hp|Hp]; [discriminate|]). destruct Hp.
  - rewrite ex_resize_dangles in E. discriminate.
Qed.
Lemma shrink_refuted : ~ forall ops, (forall a, ~ In (LoadTree a) ops) -> kept_run no_objects ops ->
  run no_objects ops <> Ub UbIndex.
Proof.
  intros H. apply (H ex_shrink).
  - intros a Hp. cbn in Hp. repeat (destruct Hp as [Hp|Hp]; [discriminate|]). destruct Hp.
  - unfold ex_shrink. steps; [|split; [|intros h' E; vm_compute in E; discriminate]]; cbn [kept].
    all: (intros d i e refs G; vm_compute in G; injection G as <- <- <- <-; split; [cbn; auto|];
      intros X; cbn in X; repeat (destruct X as [X|X]; [discriminate|]); destruct X).
  - reflexivity.
Qed.
(** Refilling in place. *)
Definition ex_state : pyheap :=
  match run no_objects [NewArray; NewArray; MakeTree 0; SearchDArray 2 1 [(2, 1); (1, 0)]; GetItem 3 0] with Ok h => h | _ => no_objects end.
Lemma ex_state_ok : run no_objects [NewArray; NewArray; MakeTree 0; SearchDArray 2 1 [(2, 1); (1, 0)]; GetItem 3 0] = Ok ex_state.
Proof. reflexivity. Qed.
Lemma ex_state_darray : get ex_state 3 = Some (Obj (KDArray [Vec (Some 2) 2 3; Vec (Some 3) 1 1]) []).
Proof. reflexivity. Qed.
Lemma ex_state_fits : results_fit [Vec (Some 2) 2 3; Vec (Some 3) 1 1] [(3, 0); (0, 0)].
Proof.
  split; [cbn; lia|]. intros [|[|i]] v r Hv Hr; cbn in Hv, Hr; try (destruct i; discriminate);
    injection Hv as <-; injection Hr as <-; cbn; lia.
Qed.
Lemma ex_state_refill : exists h, step ex_state (SearchDArrayInto 2 1 3 [(3, 0); (0, 0)]) = Ok h
  /\ get h 3 = Some (Obj (KDArray [Vec (Some 2) 3 3; Vec (Some 3) 0 1]) []).
Proof. eexists. split; reflexivity. Qed.
Lemma ex_state_end : exists h, run ex_state (end_of_program ex_state) = Ok h
  /\ h_objs h = [None; None; None; None; None] /\ h_blocks h = [false; false; false; false] /\ h_blocks ex_state = [true; true; true; true].
Proof. eexists. split; [vm_compute; reflexivity|]. repeat split. Qed.
